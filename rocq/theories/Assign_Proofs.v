(** Tensors in row-major order, sequences of writes, and the folding of constants. *)
From Coq Require Import ZArith List Bool Lia Sorting.
From Verif Require Import Rel_Model Rel_Proofs Points_Model Points_Spec Points_Proofs Layout_Spec Layout_Proofs Assign_Model Assign_Spec.
Import ListNotations.
Open Scope Z_scope.

(** * Writes *)
Definition puts {T} (ws : list (list Z * T)) (out : option (tensor T)) : option (tensor T) :=
  fold_left (fun o w => match o with Some o => put o (fst w) (snd w) | None => None end) ws out.
Fixpoint last_write {T} (g : list Z) (ws : list (list Z * T)) : option T :=
  match ws with
  | [] => None
  | (h, x) :: ws => match last_write g ws with Some y => Some y | None => if list_eq_dec Z.eq_dec g h then Some x else None end
  end.
Lemma last_write_some {T} g (ws : list (list Z * T)) x : last_write g ws = Some x -> In (g, x) ws.
Proof.
  induction ws as [|(h, y) ws IH]; cbn; [discriminate|]. destruct (last_write g ws) eqn:E.
  - intros [= ->]. right. now apply IH.
  - destruct (list_eq_dec Z.eq_dec g h) as [->|]; [|discriminate]. intros [= ->]. now left.
Qed.
Lemma last_write_none {T} g (ws : list (list Z * T)) : last_write g ws = None <-> forall x, ~ In (g, x) ws.
Proof.
  induction ws as [|(h, y) ws IH]; cbn; [split; auto|]. destruct (last_write g ws) as [z|] eqn:E.
  - split; [discriminate|]. intros H. exfalso. apply (H z). right. now apply last_write_some.
  - destruct (list_eq_dec Z.eq_dec g h) as [->|N]; [split; [discriminate|]; intros H; exfalso; apply (H y); now left|].
    split; auto. intros _ x [[= <- <-]|I]; [easy|]. now apply (proj1 IH eq_refl x).
Qed.
Lemma puts_ok {T} shape (ws : list (list Z * T)) : forall out, shaped shape out -> (forall g x, In (g, x) ws -> in_box shape g) ->
  exists out', puts ws (Some out) = Some out' /\ shaped shape out' /\
    forall g, get out' g = match last_write g ws with Some x => Some x | None => get out g end.
Proof.
  induction ws as [|(h, x) ws IH]; intros out O B.
  - exists out. split; [reflexivity|]. split; [exact O|]. reflexivity.
  - destruct (put_shaped shape out h x O) as (o & P & So & G & K); [apply (B h x); now left|].
    destruct (IH o So) as (o' & Q & So' & V); [intros g y I; apply (B g y); now right|].
    exists o'. unfold puts. cbn [fold_left fst snd]. rewrite P. split; [exact Q|]. split; [exact So'|].
    intros g. rewrite V. cbn [last_write]. destruct (last_write g ws); [reflexivity|]. destruct (list_eq_dec Z.eq_dec g h) as [->|N]; auto.
Qed.
(** the first write to a place among those done in the opposite order *)
Lemma last_write_app {T} g (a b : list (list Z * T)) : last_write g (a ++ b) = match last_write g b with Some x => Some x | None => last_write g a end.
Proof.
  induction a as [|(h, x) a IH]; cbn; [now destruct (last_write g b)|]. rewrite IH. destruct (last_write g b); reflexivity.
Qed.
Lemma last_write_rev {T} g (ws : list (list Z * T)) x : last_write g (rev ws) = Some x ->
  exists a b, ws = a ++ (g, x) :: b /\ forall y, ~ In (g, y) a.
Proof.
  induction ws as [|(h, y) ws IH]; cbn; [discriminate|]. rewrite last_write_app. cbn. destruct (list_eq_dec Z.eq_dec g h) as [->|N].
  - intros [= ->]. exists [], ws. split; [reflexivity|]. intros z [].
  - intros E. apply IH in E as (a & b & -> & H). exists ((h, y) :: a), b. split; [reflexivity|]. intros z [[= <- <-]|I]; [easy|]. now apply (H z).
Qed.

(** * Row-major order *)
Lemma tensor_ind2 {T} (P : tensor T -> Prop) : (forall x, P (Elem x)) -> (forall l, Forall P l -> P (Vector l)) -> forall t, P t.
Proof.
  intros HE HV. fix IH 1. intros [x|l]; [apply HE|]. apply HV. induction l as [|t l IHl]; constructor; [apply IH|exact IHl].
Qed.
Lemma size_nonneg shape : Forall (fun s => 0 <= s) shape -> 0 <= size shape.
Proof. induction 1; cbn; nia. Qed.
Lemma shaped_nonneg {T} shape : forall t : tensor T, shaped shape t -> (exists d, in_box shape d) -> Forall (fun s => 0 < s) shape.
Proof. intros t _ (d & D). induction D; constructor; auto. lia. Qed.
Lemma leaves_length {T} shape : forall t : tensor T, shaped shape t -> Z.of_nat (length (leaves t)) = size shape.
Proof.
  induction shape as [|n shape IH]; intros t S; cbn in S; [destruct S as (x & ->); reflexivity|]. destruct S as (l & -> & L & F). cbn [leaves size]. subst n. induction F as [|t l St F IHl]; [reflexivity|].
  cbn [flat_map length]. rewrite app_length. rewrite Nat2Z.inj_add, IHl, IH by easy. lia.
Qed.
Lemma nth_error_flat_map {A B} (f : A -> list B) n l : (forall a, In a l -> length (f a) = n) -> forall i j, (j < n)%nat ->
  nth_error (flat_map f l) (i * n + j) = match nth_error l i with Some a => nth_error (f a) j | None => None end.
Proof.
  induction l as [|a l IH]; intros H i j J; cbn [flat_map].
  - rewrite !(proj2 (nth_error_None _ _)) by (cbn; lia). destruct i; reflexivity.
  - pose proof (H a ltac:(now left)) as La. destruct i as [|i]; cbn [nth_error].
    + rewrite nth_error_app1 by lia. reflexivity.
    + rewrite nth_error_app2 by lia. rewrite <- IH; [|intros b Hb; apply H; now right|exact J]. f_equal. lia.
Qed.
Lemma get_leaves {T} shape : forall (t : tensor T) d, shaped shape t -> in_box shape d -> nth_error (leaves t) (Z.to_nat (flat shape d)) = get t d.
Proof.
  induction shape as [|n shape IH]; intros t d S B; inversion B as [|? i ? d' I B']; subst; cbn in S.
  - destruct S as (x & ->). reflexivity.
  - destruct S as (l & -> & L & F). cbn [leaves get flat]. pose proof (flat_bound _ _ B') as Fb. rewrite Forall_forall in F.
    replace (Z.to_nat (i * size shape + flat shape d')) with (Z.to_nat i * Z.to_nat (size shape) + Z.to_nat (flat shape d'))%nat by (rewrite Z2Nat.inj_add, Z2Nat.inj_mul by nia; lia).
    rewrite nth_error_flat_map with (n := Z.to_nat (size shape)); [|intros t Ht; pose proof (leaves_length shape t (F t Ht)); lia|lia].
    unfold at_index. destruct (Z.ltb_spec i 0); [lia|]. destruct (nth_error l (Z.to_nat i)) as [t|] eqn:E; [|reflexivity]. apply IH; [|exact B']. apply F. eapply nth_error_In. eauto.
Qed.
Lemma of_list_shaped {T} (zero : T) shape : forall l, Forall (fun s => 0 <= s) shape -> shaped shape (of_list zero shape l).
Proof.
  induction shape as [|n shape IH]; intros l F; cbn; [eauto|]. inversion F; subst. eexists. split; [reflexivity|]. rewrite map_length, seq_length. split; [lia|]. apply Forall_map, Forall_forall. intros i _. now apply IH.
Qed.
Lemma nth_error_skipn {A} n : forall (l : list A) i, nth_error (skipn n l) i = nth_error l (n + i).
Proof. induction n; intros [|a l] i; cbn; auto. now destruct i. Qed.
Lemma nth_error_firstn {A} n : forall (l : list A) i, (i < n)%nat -> nth_error (firstn n l) i = nth_error l i.
Proof. induction n; intros [|a l] [|i] I; cbn; auto; try lia. apply IHn. lia. Qed.
Lemma get_of_list {T} (zero : T) shape : forall l d, in_box shape d -> Z.of_nat (length l) = size shape -> get (of_list zero shape l) d = nth_error l (Z.to_nat (flat shape d)).
Proof.
  induction shape as [|n shape IH]; intros l d B L; inversion B as [|? i ? d' I B']; subst; cbn [of_list get flat].
  - cbn in L. destruct l as [|x [|]]; cbn in L; try lia. reflexivity.
  - cbn [size] in L. pose proof (flat_bound _ _ B') as Fb. unfold at_index. destruct (Z.ltb_spec i 0); [lia|].
    rewrite nth_error_map. rewrite nth_error_nth' with (d := 0%nat) by (rewrite seq_length; lia). rewrite seq_nth by lia. cbn [option_map Nat.add].
    change (elements shape) with (Rel_Model.elements shape). rewrite size_elements.
    rewrite IH; [|exact B'|rewrite firstn_length, skipn_length; nia].
    rewrite nth_error_firstn by lia. rewrite nth_error_skipn. f_equal. rewrite Z2Nat.inj_add, Z2Nat.inj_mul by nia. lia.
Qed.
Lemma of_list_filled {T} (zero : T) shape : Forall (fun s => 0 <= s) shape -> of_list zero shape (repeat zero (Z.to_nat (size shape))) = filled shape zero.
Proof.
  intros F. pose proof (size_nonneg _ F). apply (get_ext shape); [now apply of_list_shaped|now apply filled_shaped|]. intros d D. rewrite get_of_list by (auto; rewrite repeat_length; lia). rewrite get_filled by easy.
  apply nth_error_repeat. pose proof (flat_bound _ _ D). lia.
Qed.
Lemma put_of_list {T} (zero : T) shape l g x : Forall (fun s => 0 <= s) shape -> in_box shape g -> Z.of_nat (length l) = size shape ->
  put (of_list zero shape l) g x = Some (of_list zero shape (replace l (Z.to_nat (flat shape g)) x)).
Proof.
  intros F B L. destruct (put_shaped shape (of_list zero shape l) g x) as (t & -> & St & G & K); [now apply of_list_shaped|exact B|]. f_equal.
  apply (get_ext shape); [exact St|now apply of_list_shaped|]. intros d D. pose proof (flat_bound _ _ B). pose proof (flat_bound _ _ D).
  rewrite get_of_list by (auto; now rewrite replace_length). rewrite nth_error_replace by lia.
  destruct (Nat.eqb_spec (Z.to_nat (flat shape d)) (Z.to_nat (flat shape g))) as [E|E].
  - assert (d = g) by (apply (flat_inj shape); auto; lia). now subst d.
  - rewrite K by (intros ->; easy). now apply get_of_list.
Qed.

(** strides *)
Lemma strides_hd shape n : hd 1 (strides (n :: shape)) = size shape.
Proof.
  revert n. induction shape as [|m shape IH]; intros n; [reflexivity|].
  change (strides (n :: m :: shape)) with (hd 1 (strides (m :: shape)) * m :: strides (m :: shape)). cbn [hd size]. rewrite IH. lia.
Qed.
Lemma flatten_flat shape : forall d, length d = length shape -> flatten d (strides shape) = flat shape d.
Proof.
  induction shape as [|n shape IH]; intros [|i d] L; cbn in L; try lia; [reflexivity|].
  pose proof (strides_hd shape n) as H. destruct shape as [|m shape].
  - destruct d; [|cbn in L; lia]. cbn. lia.
  - change (strides (n :: m :: shape)) with (hd 1 (strides (m :: shape)) * m :: strides (m :: shape)) in *. cbn [hd] in H.
    cbn [flatten flat]. rewrite H. rewrite IH by (cbn in *; lia). reflexivity.
Qed.

(** * Folding *)
Section Folding.
Context {T : Type} (zero : T) (w : Z) (encode : T -> list Z) (decode : list Z -> T).
Hypothesis w_pos : 0 < w.
Hypothesis encoded : forall x, Z.of_nat (length (encode x)) = w /\ decode (encode x) = x.
Let n := Z.to_nat w.
Lemma encode_length x : length (encode x) = n.
Proof. pose proof (proj1 (encoded x)). unfold n. lia. Qed.
Lemma raw_length l : length (flat_map encode l) = (length l * n)%nat.
Proof. apply flat_map_length. apply encode_length. Qed.
Lemma raw_firstn l : forall k, firstn (k * n) (flat_map encode l) = flat_map encode (firstn k l).
Proof.
  induction l as [|x l IH]; intros [|k]; cbn [flat_map firstn]; try reflexivity; [now rewrite firstn_nil|].
  rewrite firstn_app, encode_length. rewrite firstn_all2 by (rewrite encode_length; lia). f_equal. rewrite <- IH. f_equal. lia.
Qed.
Lemma raw_skipn l : forall k, skipn (k * n) (flat_map encode l) = flat_map encode (skipn k l).
Proof.
  induction l as [|x l IH]; intros [|k]; cbn [flat_map skipn]; try reflexivity; [now rewrite skipn_nil|].
  rewrite skipn_app, encode_length. rewrite skipn_all2 by (rewrite encode_length; lia). cbn [app]. rewrite <- IH. f_equal. lia.
Qed.
Lemma raw_chunks l : chunks decode w (length l) (flat_map encode l) = l.
Proof.
  induction l as [|x l IH]; [reflexivity|]. cbn [length chunks flat_map]. fold n. rewrite firstn_app, encode_length, firstn_all2 by (rewrite encode_length; lia).
  rewrite Nat.sub_diag. cbn [firstn]. rewrite app_nil_r. rewrite skipn_app, encode_length, skipn_all2 by (rewrite encode_length; lia). rewrite Nat.sub_diag. cbn [skipn app].
  now rewrite IH, (proj2 (encoded x)).
Qed.
Lemma replace_split {A} (l : list A) : forall i x, (i < length l)%nat -> replace l i x = firstn i l ++ [x] ++ skipn (S i) l.
Proof. induction l as [|a l IH]; intros [|i] x I; cbn in *; try lia; [reflexivity|]. f_equal. rewrite IH by lia. reflexivity. Qed.
Lemma memcpy_raw l src i k x : 0 <= i < Z.of_nat (length l) -> 0 <= k -> nth_error src (Z.to_nat k) = Some x ->
  memcpy (flat_map encode l) (i * w) (flat_map encode src) (k * w) w = Some (flat_map encode (replace l (Z.to_nat i) x)).
Proof.
  intros I K E. assert (Kl : (Z.to_nat k < length src)%nat) by (apply nth_error_Some; congruence). unfold memcpy.
  assert (Hn : Z.of_nat n = w) by (unfold n; lia).
  assert (B : forall j (m : list T), 0 <= j < Z.of_nat (length m) -> (j * w <? 0) = false /\ (Z.of_nat (length (flat_map encode m)) <? j * w + w) = false).
  { intros j m J. rewrite raw_length. split; [apply Z.ltb_ge|apply Z.ltb_ge]; nia. }
  destruct (B i l I) as (-> & ->). destruct (B k src ltac:(lia)) as (-> & ->). cbn [orb]. f_equal.
  replace (Z.to_nat (i * w)) with (Z.to_nat i * n)%nat by (unfold n; nia). replace (Z.to_nat (k * w)) with (Z.to_nat k * n)%nat by (unfold n; nia).
  replace (Z.to_nat (i * w + w)) with (S (Z.to_nat i) * n)%nat by (unfold n; nia). fold n.
  rewrite raw_firstn, !raw_skipn. rewrite replace_split by lia. rewrite !flat_map_app. f_equal. f_equal.
  cbn [flat_map]. rewrite app_nil_r. destruct (nth_error_split _ _ E) as (a & b & -> & La). rewrite <- La. rewrite skipn_app, skipn_all, Nat.sub_diag. cbn [skipn app flat_map].
  rewrite firstn_app, encode_length, Nat.sub_diag. cbn [firstn]. rewrite app_nil_r. apply firstn_all2. rewrite encode_length. lia.
Qed.
Lemma fold_bytes_boxed total splat ss ds (src : list T) pts : forall l l', Z.of_nat (length l) = total ->
  fold_boxed total splat ss ds src pts l = Some l' ->
  fold_bytes w total splat ss ds (flat_map encode (if splat then firstn 1 src else src)) pts (flat_map encode l) = Some (flat_map encode l').
Proof.
  induction pts as [|(d, g) pts IH]; intros l l' L E; cbn [fold_boxed fold_bytes] in *; [now injection E as ->|].
  destruct ((flatten g ds <? 0) || (total <=? flatten g ds)) eqn:C; [now apply IH|]. apply orb_false_iff in C as (C1 & C2). apply Z.ltb_ge in C1. apply Z.leb_gt in C2.
  destruct (at_index src (if splat then 0 else flatten d ss)) as [x|] eqn:A; [|discriminate]. apply at_index_some in A as (A1 & A2).
  rewrite memcpy_raw with (x := x); [|lia|exact A1|].
  - apply IH; [now rewrite replace_length|exact E].
  - destruct splat; [|exact A2]. destruct src; [discriminate|]. exact A2.
Qed.
End Folding.

Lemma fold_boxed_puts {T} (zero : T) target splat sshape (t : tensor T) pts : forall l,
  Forall (fun s => 0 <= s) target -> Z.of_nat (length l) = size target -> shaped sshape t ->
  (forall d g, In (d, g) pts -> in_box sshape d /\ in_box target g) ->
  (splat = true -> forall d, in_box sshape d -> nth_error (leaves t) 0 = get t d) ->
  exists l' ws, fold_boxed (elements target) splat (strides sshape) (strides target) (leaves t) pts l = Some l' /\ Z.of_nat (length l') = size target /\
    puts ws (Some (of_list zero target l)) = Some (of_list zero target l') /\
    (forall g x, In (g, x) ws <-> exists d, In (d, g) pts /\ get t d = Some x).
Proof.
  intros l F. revert l. induction pts as [|(d, g) pts IH]; intros l L S B Sp.
  - exists l, []. cbn. splits. intros g x. split; [easy|]. now intros (d & [] & _).
  - destruct (B d g ltac:(now left)) as (Bd & Bg). pose proof (flat_bound _ _ Bg) as Fg. pose proof (flat_bound _ _ Bd) as Fd. cbn [fold_boxed].
    rewrite (flatten_flat target) by (apply (box_length _ _ Bg)). rewrite (flatten_flat sshape) by (apply (box_length _ _ Bd)). rewrite size_elements.
    destruct (Z.ltb_spec (flat target g) 0); [lia|]. destruct (Z.leb_spec (size target) (flat target g)); [lia|]. cbn [orb].
    pose proof (proj1 (get_shaped sshape t d S) Bd) as (x & X).
    assert (A : at_index (leaves t) (if splat then 0 else flat sshape d) = Some x).
    { apply at_index_some. destruct splat; (split; [lia|]); [change (Z.to_nat 0) with 0%nat; rewrite (Sp eq_refl d Bd); exact X|]. rewrite (get_leaves sshape t d) by easy. exact X. }
    rewrite A. destruct (IH (replace l (Z.to_nat (flat target g)) x)) as (l' & ws & E & L' & P & W); auto; [now rewrite replace_length|intros d' g' I; apply B; now right|].
    rewrite size_elements in E. exists l', ((g, x) :: ws). splits.
    + unfold puts in *. cbn [fold_left fst snd]. rewrite put_of_list by easy. exact P.
    + intros g' x'. cbn [In]. rewrite W. split.
      * intros [[= <- <-]|(d' & I & G)]; [exists d; split; [now left|exact X]|exists d'; split; [now right|exact G]].
      * intros (d' & [[= <- <-]|I] & G); [left; congruence|right; now exists d'].
Qed.
