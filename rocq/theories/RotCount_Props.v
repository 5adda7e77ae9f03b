(** C94: the costs of kernels and of conversions between layouts are numbers of
    rotations. *)
From Coq Require Import ZArith List Bool Arith Lia Znumtheory.
From Verif Require Import RotCount_Spec RotCount_Model RotCount_Proofs.
Import ListNotations.
Open Scope Z_scope.

(** The cost of a kernel without loops is the number of different rotations of
    encrypted data in its graph, however they are shared. *)
Theorem C94_loop_free : forall d root,
  acyclic d -> (root < length d)%nat -> positions_public d root ->
  (forall i inits args body lo up st, nth_error d i <> Some (ForLoop inits args body lo up st)) ->
  exists L, NoDup L /\ (forall p, In p L <-> secret_rotation d root p) /\
    process d root = Some (Z.of_nat (length L)).
Proof.
  intros d root Ha Hl Hp Hno.
  destruct (process_count d root (fun _ => 1)) as (c & L & E & Hnd & HL & Hc); auto.
  - intros i n x _ Hn _ _. destruct n; auto. exfalso. eapply Hno; eauto.
  - intros. exfalso. eapply Hno; eauto.
  - intros. apply secret_is_direct; auto. intros l n' x y z lo up st Hn' ->. eapply Hno; eauto.
  - exists L. split; auto. split; auto. rewrite E, Hc. f_equal. clear.
    induction L as [|q L IH]; auto. cbn [map sum]. cbn [length]. lia.
Qed.
Print Assumptions C94_loop_free.

(** With loops the rotations are counted as often as they are evaluated. Missing:
    secrets that reach a rotation only as a value that a loop carries, loops
    whose bounds are not apart by a multiple of the step, and rotations shared by
    places that are evaluated differently often. *)
Theorem C94_count_partial : forall d root w,
  acyclic d -> (root < length d)%nat -> positions_public d root -> evaluated d root w ->
  (forall i inits args body lo up st, reach d root i ->
     nth_error d i = Some (ForLoop inits args body lo up st) ->
     0 < st /\ lo <= up /\ (st | up - lo) /\ up - lo < 2 ^ 31) ->
  (forall i n a m, reach d root i -> nth_error d i = Some n -> rotates n = Some (a, m) ->
     secret d a -> directly_secret d a) ->
  exists count L, process d root = Some count /\
    NoDup L /\ (forall p, In p L <-> secret_rotation d root p) /\
    count = sum (map (fun p => w (fst p)) L).
Proof.
  intros d root w Ha Hl Hp (Hr & Hw) Hloop Hdir. apply process_count; auto.
Qed.
Print Assumptions C94_count_partial.

(** A kernel that adds up, in four steps of a loop, two rotations of an
    encrypted vector, to a value that shares a rotation, and rotates the sum. *)
Definition kernel : dag :=
  [Leaf true; Leaf false; ConstantScalar; LeftRotate 0 2; LeftRotate 1 2; Multiply 3 4; Add 5 3;
   Variable_; Variable_; LeftRotateBulk 0 [2; 7]; Add 8 9; Yield [10];
   ForLoop [6] [8] (Some 11) 0 8 2; ResultAt 12 0; LeftRotate 13 2]%nat.
Definition kernel_secret (i : nat) : bool := existsb (Nat.eqb i) [0; 3; 5; 6; 8; 9; 10; 11; 12; 13; 14]%nat.
Definition kernel_weight (i : nat) : Z := if existsb (Nat.eqb i) [9; 10; 11]%nat then 4 else 1.

Lemma kernel_nth i n : nth_error kernel i = Some n -> (i < 15)%nat.
Proof. apply nth_some_lt. Qed.

Example C94_nonvacuous :
  (acyclic kernel /\ (14 < length kernel)%nat /\ positions_public kernel 14 /\
   evaluated kernel 14 kernel_weight /\
   (forall i inits args body lo up st, reach kernel 14 i ->
     nth_error kernel i = Some (ForLoop inits args body lo up st) ->
     0 < st /\ lo <= up /\ (st | up - lo) /\ up - lo < 2 ^ 31) /\
   (forall i n a m, reach kernel 14 i -> nth_error kernel i = Some n -> rotates n = Some (a, m) ->
     secret kernel a -> directly_secret kernel a)) /\
  process kernel 14 = Some 10.
Proof.
  split; [|vm_compute; reflexivity].
  assert (Hc : forallb (closed_at kernel kernel_secret) (seq 0 (length kernel)) = true)
    by (vm_compute; reflexivity).
  split; [apply acyclic_ok; vm_compute; reflexivity|].
  split; [cbn; lia|].
  split; [apply (public_ok kernel kernel_secret); vm_compute; reflexivity|].
  split; [|split].
  - split; [reflexivity|]. intros i n c _ Hn Hin (p & Hp).
    assert (Hnot : ~ In c [0; 1; 2; 7; 8]%nat).
    { intros X. revert Hp. apply (not_rotating kernel [0; 1; 2; 7; 8]%nat); auto; vm_compute; reflexivity. }
    pose proof (kernel_nth i n Hn) as Hi.
    do 15 try (destruct i as [|i]; [injection Hn as <-; cbn [operands app In] in Hin, Hnot;
      try (decompose [or] Hin; subst; cbn in Hnot |- *; tauto) |]); try (exfalso; lia).
    decompose [or] Hin; subst; try tauto.
    + split; [reflexivity|intros X; discriminate X].
    + split; [intros [X|[]]; discriminate X|]. intros _. exists 4. split; [|reflexivity].
      split; [lia|]. intros k Hk. lia.
  - intros i inits args body lo up st _ Hn. pose proof (kernel_nth i _ Hn) as Hi.
    do 15 try (destruct i as [|i]; [try discriminate Hn|]); try (exfalso; lia).
    injection Hn as <- <- <- <- <- <-. repeat split; try lia. now exists 4.
  - intros i n a m _ Hn Hr Hs. apply (secret_within kernel kernel_secret Hc) in Hs.
    assert (R : forall j, In j [0; 13]%nat -> directly_secret kernel j).
    { assert (R0 : reach kernel 0 0) by (constructor; cbn; lia).
      intros j [<-|[<-|[]]]; exists 0%nat; split; auto.
      eapply (reach_step kernel 13 (ResultAt 12 0) 12); [reflexivity|now left|].
      eapply (reach_step kernel 12 _ 6); [reflexivity|now left|].
      eapply (reach_step kernel 6 _ 3); [reflexivity|right; now left|].
      eapply (reach_step kernel 3 _ 0); [reflexivity|now left|]. exact R0. }
    pose proof (kernel_nth i n Hn) as Hi.
    do 15 try (destruct i as [|i]; [injection Hn as <-; cbn [rotates] in Hr; try discriminate Hr;
      injection Hr as <- <-; try discriminate Hs; apply R; cbn; auto|]); try (exfalso; lia).
Qed.
Print Assumptions C94_nonvacuous.

(** The rotations of a value that a loop carries are free: the rolled
    rotate-and-reduce kernel (KernelImplementation.h:99-131) for four steps
    rotates the encrypted vector twice, and costs nothing. *)
Definition rolled : dag :=
  [Leaf true; ConstantScalar; Variable_; Variable_; ConstantScalar; Multiply 3 4; LeftRotate 2 5;
   Add 2 6; FloorDiv 3; Yield [7; 8]; ForLoop [0; 1] [2; 3] (Some 9) 0 2 1; ResultAt 10 0]%nat.

Theorem C94_carried_refuted : exists d root w L,
  acyclic d /\ (root < length d)%nat /\ positions_public d root /\ evaluated d root w /\
  (forall i inits args body lo up st, reach d root i ->
     nth_error d i = Some (ForLoop inits args body lo up st) ->
     0 < st /\ lo <= up /\ (st | up - lo) /\ up - lo < 2 ^ 31) /\
  NoDup L /\ (forall p, In p L <-> secret_rotation d root p) /\
  sum (map (fun p => w (fst p)) L) = 2 /\ process d root = Some 0.
Proof.
  pose (P := fun i => existsb (Nat.eqb i) [0; 2; 6; 7; 9; 10; 11]%nat).
  pose (w := fun i => if existsb (Nat.eqb i) [10; 11]%nat then 1 else 2).
  exists rolled, 11%nat, w, [(6, 0)]%nat.
  assert (Hc : forallb (closed_at rolled P) (seq 0 (length rolled)) = true) by (vm_compute; reflexivity).
  assert (Hlt : forall i n, nth_error rolled i = Some n -> (i < 12)%nat) by (intros i n; apply nth_some_lt).
  split; [apply acyclic_ok; vm_compute; reflexivity|].
  split; [cbn; lia|].
  split; [apply (public_ok rolled P); vm_compute; reflexivity|].
  split; [|split; [|split; [|split; [|split]]]].
  - split; [reflexivity|]. intros i n c _ Hn Hin (p & Hp).
    assert (Hnot : ~ In c [0; 1; 2; 3; 4; 5]%nat).
    { intros X. revert Hp. apply (not_rotating rolled [0; 1; 2; 3; 4; 5]%nat); auto; vm_compute; reflexivity. }
    pose proof (Hlt i n Hn) as Hi.
    do 12 try (destruct i as [|i]; [injection Hn as <-; cbn [operands app In] in Hin, Hnot;
      try (decompose [or] Hin; subst; cbn in Hnot |- *; tauto) |]); try (exfalso; lia).
    decompose [or] Hin; subst; try tauto.
    split; [intros [X|[X|[]]]; discriminate X|]. intros _. exists 2. split; [|reflexivity].
    split; [lia|]. intros k Hk. lia.
  - intros i inits args body lo up st _ Hn. pose proof (Hlt i _ Hn) as Hi.
    do 12 try (destruct i as [|i]; [try discriminate Hn|]); try (exfalso; lia).
    injection Hn as <- <- <- <- <- <-. repeat split; try lia. now exists 2.
  - constructor; [intros []|constructor].
  - intros (i, k). split.
    + intros [X|[]]. injection X as <- <-. split.
      * eapply (reach_step rolled 11 _ 10); [reflexivity|now left|].
        eapply (reach_step rolled 10 _ 9); [reflexivity|cbn; auto|].
        eapply (reach_step rolled 9 _ 7); [reflexivity|cbn; auto|].
        eapply (reach_step rolled 7 _ 6); [reflexivity|cbn; auto|]. constructor. cbn; lia.
      * exists (LeftRotate 2 5), 2%nat, 1%nat. repeat split; [lia|].
        eapply (secret_init rolled 2 10 _ _ _ _ _ _ 0 0); [reflexivity..|]. now constructor.
    + intros (_ & n & a & m & Hn & Hr & Hk & _). pose proof (Hlt i n Hn) as Hi.
      do 12 try (destruct i as [|i]; [injection Hn as <-; cbn [rotates] in Hr; try discriminate Hr;
        injection Hr as <- <-; left; f_equal; lia|]); try (exfalso; lia).
  - reflexivity.
  - vm_compute. reflexivity.
Qed.
Print Assumptions C94_carried_refuted.

(** The number of iterations is rounded down, and negative for loops that do not
    run: rotations are forgotten, or counted as gains. *)
Definition one_loop (lo up st : Z) : dag :=
  [Leaf true; ConstantScalar; Variable_; LeftRotate 0 1; Yield [3];
   ForLoop [1] [2] (Some 4) lo up st]%nat.

Theorem C94_iterations_refuted : forall lo up st t counted,
  (lo, up, st, t, counted) = (0, 3, 2, 2, 1) \/ (lo, up, st, t, counted) = (2, 0, 1, 0, -2) ->
  exists d root w L,
    acyclic d /\ (root < length d)%nat /\ positions_public d root /\ evaluated d root w /\
    (forall i n a m, reach d root i -> nth_error d i = Some n -> rotates n = Some (a, m) ->
       secret d a -> directly_secret d a) /\
    nth_error d root = Some (ForLoop [1] [2] (Some 4) lo up st)%nat /\ iterates lo up st t /\
    NoDup L /\ (forall p, In p L <-> secret_rotation d root p) /\
    sum (map (fun p => w (fst p)) L) = t /\ process d root = Some counted.
Proof.
  intros lo up st t counted H.
  pose (P := fun i => existsb (Nat.eqb i) [0; 2; 3; 4; 5]%nat).
  pose (w := fun i => if Nat.eqb i 5 then 1 else t).
  exists (one_loop lo up st), 5%nat, w, [(3, 0)]%nat.
  assert (Hc : forallb (closed_at (one_loop lo up st) P) (seq 0 6) = true) by reflexivity.
  assert (Hlt : forall i n, nth_error (one_loop lo up st) i = Some n -> (i < 6)%nat)
    by (intros i n; apply nth_some_lt).
  assert (Hit : iterates lo up st t).
  { destruct H as [H|H]; injection H as -> -> -> -> ->; (split; [lia|intros k Hk; lia]). }
  split; [apply acyclic_ok; reflexivity|].
  split; [cbn; lia|].
  split; [apply (public_ok _ P); reflexivity|].
  split; [|split; [|split; [|split; [|split; [|split; [|split]]]]]].
  - split; [reflexivity|]. intros i n c _ Hn Hin (p & Hp).
    assert (Hnot : ~ In c [0; 1; 2]%nat).
    { intros X. revert Hp. apply (not_rotating (one_loop lo up st) [0; 1; 2]%nat); auto. }
    pose proof (Hlt i n Hn) as Hi.
    do 6 try (destruct i as [|i]; [injection Hn as <-; cbn [operands app In] in Hin, Hnot;
      try (decompose [or] Hin; subst; cbn in Hnot |- *; tauto) |]); try (exfalso; lia).
    decompose [or] Hin; subst; try tauto.
    split; [intros [X|[]]; discriminate X|]. intros _. exists t. split; auto. unfold w. cbn [Nat.eqb]. lia.
  - intros i n a m _ Hn Hr _. pose proof (Hlt i n Hn) as Hi.
    do 6 try (destruct i as [|i]; [injection Hn as <-; cbn [rotates] in Hr; try discriminate Hr|]); try (exfalso; lia).
    injection Hr as <- <-. exists 0%nat. split; [constructor; cbn; lia|reflexivity].
  - reflexivity.
  - exact Hit.
  - constructor; [intros []|constructor].
  - intros (i, k). split.
    + intros [X|[]]. injection X as <- <-. split.
      * eapply (reach_step (one_loop lo up st) 5 _ 4); [reflexivity|cbn; auto|].
        eapply (reach_step (one_loop lo up st) 4 _ 3); [reflexivity|cbn; auto|]. constructor. cbn; lia.
      * exists (LeftRotate 0 1), 0%nat, 1%nat. repeat split; [lia|]. now constructor.
    + intros (_ & n & a & m & Hn & Hr & Hk & _). pose proof (Hlt i n Hn) as Hi.
      do 6 try (destruct i as [|i]; [injection Hn as <-; cbn [rotates] in Hr; try discriminate Hr;
        injection Hr as <- <-; left; f_equal; lia|]); try (exfalso; lia).
  - cbn [map sum fst w Nat.eqb]. lia.
  - destruct H as [H|H]; injection H as -> -> -> -> ->; vm_compute; reflexivity.
Qed.
Print Assumptions C94_iterations_refuted.

(** The cost of a conversion between layouts is the largest, among the groups of
    rotations, of the number of paths from the outputs to rotations. *)
Theorem C94_conversion_paths : forall d groups,
  acyclic d -> convertible d ->
  (forall g v, In g groups -> In v g -> (v < length d)%nat) ->
  exists cost, max_rotations d groups 0 = Some cost /\
    (forall g, In g groups -> exists L : list (nat * list nat), NoDup L /\
       (forall k p, In (k, p) L <-> exists v, nth_error g k = Some v /\ to_rotation d v p) /\
       Z.of_nat (length L) <= cost) /\
    (cost = 0 \/ exists g, In g groups /\ exists L : list (nat * list nat), NoDup L /\
       (forall k p, In (k, p) L <-> exists v, nth_error g k = Some v /\ to_rotation d v p) /\
       Z.of_nat (length L) = cost).
Proof.
  intros d groups Ha Hc.
  assert (G : forall groups m, 0 <= m -> (forall g v, In g groups -> In v g -> (v < length d)%nat) ->
    exists cost, max_rotations d groups m = Some cost /\ m <= cost /\
    (forall g, In g groups -> exists L : list (nat * list nat), NoDup L /\
       (forall k p, In (k, p) L <-> exists v, nth_error g k = Some v /\ to_rotation d v p) /\
       Z.of_nat (length L) <= cost) /\
    (cost = m \/ exists g, In g groups /\ exists L : list (nat * list nat), NoDup L /\
       (forall k p, In (k, p) L <-> exists v, nth_error g k = Some v /\ to_rotation d v p) /\
       Z.of_nat (length L) = cost)).
  { clear groups. induction groups as [|g groups IH]; intros m Hm Hv.
    - exists m. split; [reflexivity|]. split; [lia|]. split; [intros g []|]. now left.
    - destruct (group_ok d Ha Hc g 0 (fun v => Hv g v (or_introl eq_refl))) as (L & EL & NL & HL).
      destruct (IH (Z.max m (0 + Z.of_nat (length L))) ltac:(lia)
                  (fun g' v Hg => Hv g' v (or_intror Hg))) as (cost & E & Hle & Hall & Hex).
      exists cost. cbn [max_rotations]. rewrite EL. cbn [bind]. split; auto. split; [lia|]. split.
      + intros g' [<-|Hg']; auto. exists L. split; auto. split; auto. lia.
      + destruct Hex as [Hex|(g' & Hg' & X)].
        * destruct (Z.max_spec m (0 + Z.of_nat (length L))) as [(_ & Em)|(_ & Em)].
          -- right. exists g. split; [now left|]. exists L. split; auto. split; auto. lia.
          -- left. lia.
        * right. exists g'. split; [now right|]. exact X. }
  intros Hv. destruct (G groups 0 ltac:(lia) Hv) as (cost & E & _ & H1 & H2). eauto.
Qed.
Print Assumptions C94_conversion_paths.

(** So a rotation that is shared is counted for each of its uses, although the
    converted program performs it once: one rotation, cost four, both within an
    output and between outputs. *)
Definition shared : dag :=
  [Leaf true; ConstantScalar; LeftRotate 0 1; Add 2 2; Add 3 3]%nat.

Theorem C94_conversion_refuted : exists d,
  acyclic d /\ convertible d /\
  (exists v L, NoDup L /\ (forall p, In p L <-> secret_rotation d v p) /\ length L = 1%nat /\
     max_rotations d [[v]] 0 = Some 4) /\
  (exists v1 v2 L, NoDup L /\
     (forall p, In p L <-> secret_rotation d v1 p \/ secret_rotation d v2 p) /\ length L = 1%nat /\
     max_rotations d [[v1; v2]] 0 = Some 3).
Proof.
  exists shared.
  assert (Hlt : forall i n, nth_error shared i = Some n -> (i < 5)%nat) by (intros i n; apply nth_some_lt).
  assert (R2 : reach shared 2 2) by (constructor; cbn; lia).
  assert (R3 : reach shared 3 2) by (eapply (reach_step shared 3 _ 2); [reflexivity|now left|exact R2]).
  assert (R4 : reach shared 4 2) by (eapply (reach_step shared 4 _ 3); [reflexivity|now left|exact R3]).
  assert (H1 : forall v, reach shared v 2 -> secret_rotation shared v (2, 0)%nat).
  { intros v Hv. split; auto. exists (LeftRotate 0 1), 0%nat, 1%nat. repeat split; [lia|]. now constructor. }
  assert (H2 : forall v p, secret_rotation shared v p -> p = (2, 0)%nat).
  { intros v (i, k) (_ & n & a & m & Hn & Hr & Hk & _). pose proof (Hlt i n Hn) as Hi.
    do 5 try (destruct i as [|i]; [injection Hn as <-; cbn [rotates] in Hr; try discriminate Hr;
      injection Hr as <- <-; f_equal; lia|]); try (exfalso; lia). }
  split; [apply acyclic_ok; reflexivity|]. split.
  { intros i n Hn. pose proof (Hlt i n Hn) as Hi.
    do 5 try (destruct i as [|i]; [injection Hn as <-; cbn; auto|]); try (exfalso; lia). }
  split.
  - exists 4%nat, [(2, 0)]%nat. split; [constructor; [intros []|constructor]|]. split; [|split; reflexivity].
    intros p. split; [intros [<-|[]]; auto|]. intros H. left. symmetry. eauto.
  - exists 2%nat, 3%nat, [(2, 0)]%nat. split; [constructor; [intros []|constructor]|]. split; [|split; reflexivity].
    intros p. split; [intros [<-|[]]; auto|]. intros [H|H]; left; symmetry; eauto.
Qed.
Print Assumptions C94_conversion_refuted.
