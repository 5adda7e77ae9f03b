(** C73: enumerating the points of a layout, packing a tensor into ciphertexts and unpacking it. *)
From Coq Require Import ZArith List Lia Sorting.Sorted.
From Verif Require Import NumTheory_Model Rel_Model Rel_Proofs Layout_Spec Layout_Proofs Layout_Props Points_Model Points_Spec Points_Proofs Points_Boxes.
Import ListNotations.
Open Scope Z_scope.

(** enumeratePoints lists the points of the relation, each once, whichever way of enumeration it takes. *)
Theorem C73_enumerate r lower upper image wrapped pts :
  well_formed r -> bounds_hold r lower upper -> lists_images r image -> lists_points r wrapped ->
  enumerate r lower upper image wrapped = Some pts ->
  NoDup pts /\ forall d g, In (d, g) pts <-> relates r d g.
Proof. apply enumerate_ok. Qed.
Print Assumptions C73_enumerate.

(** The box that is searched holds all the indices. *)
Theorem C73_box r lower upper lb ub :
  well_formed r -> bounds_hold r lower upper -> domain_box r lower upper = Some (lb, ub) ->
  forall d g i, relates r d g -> (i < nd r)%nat -> nth i lb 0 <= nth i d 0 <= nth i ub 0.
Proof. intros W B E d g i R I. now apply (box_ok r lower upper lb ub W B E) with (g := g). Qed.
Print Assumptions C73_box.

(** It never fails for a layout, with no help by Fourier-Motzkin elimination. *)
Theorem C73_layouts_found slots lower upper image wrapped r :
  (exists shape, Forall (fun s => s < 2 ^ 63) shape /\ r = row_major shape slots) \/
  (exists n m, n < 2 ^ 63 /\ m < 2 ^ 63 /\
     (diagonal [n; m] slots = Some r \/ per_row [n; m] slots = Some r \/ bicyclic [n; m] slots = Some r \/
      exists first stride, r = bicyclic_diagonal [n; m] first stride slots)) \/
  (exists h n m, h < 2 ^ 63 /\ n < 2 ^ 63 /\ m < 2 ^ 63 /\ tricyclic [h; n; m] slots = Some r) ->
  well_formed r /\ nr r = 2%nat /\ exists pts, enumerate r lower upper image wrapped = Some pts.
Proof.
  intros H. assert (Q : exists n, ready n r).
  { destruct H as [(shape & F & ->)|[(n & m & Hn & Hm & [E|[E|[E|(first & stride & ->)]]])|(h & n & m & Hh & Hn & Hm & E)]].
    - exists (length shape). apply ready_row_major. eapply Forall_impl; [|exact F]. intros a A. cbn in A. unfold max64. lia.
    - exists 2%nat. apply (ready_diagonal n m slots); auto; unfold max64; lia.
    - exists 2%nat. apply (ready_per_row n m slots); auto; unfold max64; lia.
    - exists 2%nat. now apply (ready_bicyclic n m slots).
    - exists 2%nat. apply ready_bicyclic_diagonal; unfold max64; lia.
    - exists 3%nat. apply (ready_tricyclic h n m slots); auto; unfold max64; lia. }
  destruct Q as (n & Q). split; [|split].
  - destruct Q as ((F & _) & _). now apply fits_formed.
  - apply Q.
  - now apply (ready_enumerate n).
Qed.
Print Assumptions C73_layouts_found.

(** getCtComplementPoints: the ciphertexts without an element, in ascending order. *)
Theorem C73_complement r lower upper image cts l :
  well_formed r -> bounds_hold r lower upper -> lists_images r image -> complement r lower upper image cts = Some l ->
  StronglySorted Z.lt l /\ forall ct, In ct l <-> 0 <= ct < cts /\ forall d slot, ~ packs r d ct slot.
Proof. apply complement_ok. Qed.
Print Assumptions C73_complement.

(** Packing: each slot holds the element the layout relates to it, the others hold zero.  The number of ciphertexts and slots
    is given or comes from the bounds of the range. *)
Theorem C73_pack T (zero : T) r upper pts shape cts slots given t :
  nr r = 2%nat -> (forall d g, In (d, g) pts <-> relates r d g) -> shaped shape t ->
  functional (packs r) -> within shape cts slots (packs r) -> 0 <= cts -> 0 <= slots ->
  given = Some (cts, slots) \/ (given = None /\ upper (nd r) = Some (cts - 1) /\ upper (nd r + 1)%nat = Some (slots - 1)) ->
  exists m, evaluate_layout zero r upper (Some pts) t given = Some m /\ shaped [cts; slots] m /\
    (forall d ct slot, packs r d ct slot -> get m [ct; slot] = get t d) /\
    (forall ct slot, 0 <= ct < cts -> 0 <= slot < slots -> (forall d, ~ packs r d ct slot) -> get m [ct; slot] = Some zero).
Proof.
  intros N P S F W Hc Hs G.
  assert (E0 : evaluate_layout zero r upper (Some pts) t given = write_points t pts (filled [cts; slots] zero)).
  { unfold evaluate_layout, range_at. destruct G as [-> |(-> & -> & ->)]; [reflexivity|]. now rewrite !Z.sub_add. }
  rewrite E0. assert (Q : forall d g, In (d, g) pts -> g = [nth 0 g 0; nth 1 g 0] /\ packs r d (nth 0 g 0) (nth 1 g 0)).
  { intros d g I. apply P in I. pose proof (range_pair r d g N I) as E. split; [exact E|]. unfold packs. now rewrite <- E. }
  destruct (write_ok t shape cts slots pts (filled [cts; slots] zero)) as (m & E & Sm & A & B); auto.
  - apply filled_shaped. auto.
  - intros d g I. destruct (Q d g I) as (_ & R). destruct (W _ _ _ R) as (D & C & L). split; [exact D|]. repeat constructor; lia.
  - intros d e g h I J E1 E2. destruct (Q d g I) as (_ & R1). destruct (Q e h J) as (_ & R2). rewrite <- E1, <- E2 in R2. now apply (F (nth 0 g 0) (nth 1 g 0)).
  - exists m. splits.
    + intros d ct slot R. apply P in R. exact (A d [ct; slot] R).
    + intros ct slot C L H. rewrite B; [apply get_filled; repeat constructor; lia|]. intros d g I X. destruct (Q d g I) as (_ & R). injection X as X1 X2. rewrite X1, X2 in R. exact (H d R).
Qed.
Print Assumptions C73_pack.

(** Unpacking recovers the tensor from any ciphertexts that hold its elements in the slots of the layout. *)
Theorem C73_unpack T (zero : T) r pts shape cts slots t m :
  nr r = 2%nat -> (forall d g, In (d, g) pts <-> relates r d g) -> Forall (fun s => 0 <= s) shape -> shaped shape t -> shaped [cts; slots] m ->
  stores_all shape (packs r) -> within shape cts slots (packs r) ->
  (forall d ct slot, packs r d ct slot -> get m [ct; slot] = get t d) ->
  unpack_layout zero (Some pts) m shape = Some t.
Proof.
  intros N P Z0 S M St W H. unfold unpack_layout. apply (read_ok m t shape cts slots); auto.
  - now apply filled_shaped.
  - intros d g I. apply P in I. pose proof (range_pair r d g N I) as E. assert (R : packs r d (nth 0 g 0) (nth 1 g 0)) by (unfold packs; now rewrite <- E).
    destruct (W _ _ _ R) as (D & C & L). split; [exact D|]. split; [repeat constructor; lia|]. now apply H.
  - intros d D. right. destruct (St d D) as (ct & slot & R). exists [ct; slot]. now apply P.
Qed.
Print Assumptions C73_unpack.

(** Together: whatever is packed with a layout that loses and mixes up no element comes back. *)
Theorem C73_roundtrip T (zero : T) r lower upper image wrapped shape cts slots t :
  well_formed r -> bounds_hold r lower upper -> lists_images r image -> lists_points r wrapped -> nr r = 2%nat ->
  functional (packs r) -> stores_all shape (packs r) -> within shape cts slots (packs r) ->
  Forall (fun s => 0 <= s) shape -> 0 <= cts -> 0 <= slots -> shaped shape t ->
  let pts := enumerate r lower upper image wrapped in
  pts <> None -> exists m, evaluate_layout zero r upper pts t (Some (cts, slots)) = Some m /\ unpack_layout zero pts m shape = Some t.
Proof.
  intros W B I L N F St Wi Z0 Hc Hs S pts D. destruct pts as [p|] eqn:E; [|easy]. destruct (enumerate_ok r lower upper image wrapped p W B I L E) as (_ & P).
  destruct (C73_pack T zero r upper p shape cts slots (Some (cts, slots)) t) as (m & A & Sm & G & _); auto. exists m. split; [exact A|]. now apply (C73_unpack T zero r p shape cts slots t m).
Qed.
Print Assumptions C73_roundtrip.

(** A vector of three elements in ciphertexts of four slots *)
Definition three_image (d : list Z) : list (list Z) :=
  match d with
  | [i] => if ((0 <=? i) && (i <? 3))%bool then [[0; i]] else []
  | _ => []
  end.
Definition three_points : list (list Z) := [[0; 0; 0]; [1; 0; 1]; [2; 0; 2]].
Lemma three_relates d g : relates (row_major [3] 4) d g <-> exists i, 0 <= i < 3 /\ d = [i] /\ g = [0; i].
Proof.
  assert (P : padding (size [3]) 4) by (split; [exists 2; lia|cbn; lia]).
  destruct (C72_row_major [3] 4 4) as (M & _); [repeat constructor|cbn; lia|lia|exact P|]. unfold packs in M. split.
  - intros R. assert (N : nr (row_major [3] 4) = 2%nat) by reflexivity. pose proof (range_pair _ _ _ N R) as Eg. rewrite Eg in R. apply M in R as (B & S & C & D).
    inversion B as [|? i ? d' I B']; subst. inversion B'; subst. cbn [flat size] in C, D. exists i. split; [easy|]. split; [easy|]. rewrite Eg.
    assert (X : (i * 1 + 0) / 4 = 0) by (apply Z.div_small; lia). rewrite X in C. rewrite C. f_equal. f_equal. rewrite (Z.mod_small (nth 1 g 0)), Z.mod_small in D by lia. lia.
  - intros (i & I & -> & ->). apply M. cbn [flat size]. split; [repeat constructor; lia|]. split; [lia|]. split; [symmetry; apply Z.div_small; lia|]. rewrite !Z.mod_small by lia. lia.
Qed.
Example C73_nonvacuous :
  let r := row_major [3] 4 in let none := fun _ : nat => @None Z in let t := Vector [Elem 10; Elem 20; Elem 30] in
  well_formed r /\ bounds_hold r none none /\ lists_images r three_image /\ lists_points r three_points /\
  functional (packs r) /\ stores_all [3] (packs r) /\ within [3] 1 4 (packs r) /\ shaped [3] t /\
  enumerate r none none three_image three_points = Some [([0], [0; 0]); ([1], [0; 1]); ([2], [0; 2])] /\
  evaluate_layout 0 r none (enumerate r none none three_image three_points) t (Some (1, 4)) = Some (Vector [Vector [Elem 10; Elem 20; Elem 30; Elem 0]]) /\
  complement r none none three_image 3 = Some [1; 2].
Proof.
  intros r none t.
  assert (P : padding (size [3]) 4) by (split; [exists 2; lia|cbn; lia]).
  destruct (C72_row_major [3] 4 4) as (_ & Fu & St & Wi & _); [repeat constructor|cbn; lia|lia|exact P|]. fold r in Fu, St, Wi.
  split; [|split; [|split; [|split; [|split; [|split; [|split; [|split; [|split; [|split]]]]]]]]]; try assumption.
  - apply fits_formed. apply (ready_row_major [3] 4). repeat constructor. unfold max64. lia.
  - intros d g i b _. split; discriminate.
  - intros d L. split.
    + destruct d as [|i [|]]; try constructor. cbn. destruct (_ && _)%bool; repeat constructor; auto.
    + intros g. unfold r. rewrite three_relates. destruct d as [|i [|]]; try discriminate. cbn [three_image]. split.
      * intros I. exists i. destruct (Z.leb_spec 0 i), (Z.ltb_spec i 3); cbn in I; try easy. destruct I as [<-|[]]. splits.
      * intros (j & J & E & ->). injection E as ->. destruct (Z.leb_spec 0 j), (Z.ltb_spec j 3); try lia. now left.
  - split.
    + repeat constructor; cbn; intuition discriminate.
    + intros p. split.
      * intros I. assert (X : exists i, 0 <= i < 3 /\ p = [i; 0; i]).
        { destruct I as [<-|[<-|[<-|[]]]]; [exists 0|exists 1|exists 2]; (split; [lia|reflexivity]). }
        destruct X as (i & I' & ->). exists [i], [0; i]. split; [reflexivity|]. apply three_relates. exists i. auto.
      * intros (d & g & -> & R). apply three_relates in R as (i & I & -> & ->). assert (i = 0 \/ i = 1 \/ i = 2) as [-> |[-> | ->]] by lia; cbn; auto.
  - exists [Elem 10; Elem 20; Elem 30]. split; [reflexivity|]. split; [reflexivity|]. repeat constructor; eexists; reflexivity.
  - vm_compute. reflexivity.
  - vm_compute. reflexivity.
  - vm_compute. reflexivity.
Qed.
