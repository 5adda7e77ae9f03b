(** C70: scales of B/GV ciphertexts. *)
From Coq Require Import ZArith List Bool Lia.
From Verif Require Import NumTheory_Model Mgmt_Model Mgmt_Spec Scale_Model Scale_Spec Scale_Proofs.
Import ListNotations.
Open Scope Z_scope.

(** prime-like moduli: invertible modulo the plaintext modulus *)
Definition good_moduli (P : bgv) : Prop :=
  1 < pt P < 2 ^ 63 /\ forall q, In q (qi P) -> 0 < q /\ Z.gcd q (pt P) = 1.
(** what populate-scale-bgv makes of the adjust_scales *)
Definition materialized (P : bgv) (p : prog) (sc : nat -> Z) (delta : nat -> option Z) : Prop :=
  forall i k a, In i (body p) -> op i = AdjustScale k -> args i = [a] ->
    materialize (delta_bgv P) (sc (res i)) (sc a) = Some (delta (res i)).

Theorem C70_correct : forall P lev p st ev C E sc delta,
  good_moduli P -> pt P <= 2 ^ 31 -> wf p -> scheme_ops (pt P) ev p ->
  scale_bgv true P lev p st -> (forall v s, annotation st v = Some s -> sc v = s) ->
  materialized P p sc delta ->
  execution (pt P) (qi P) lev ev p C E sc delta ->
  forall v, In v (values p) -> secret p v = true ->
    annotation st v = Some (sc v) /\ eqv (pt P) (E v) (scaled (sc v) (C v)) /\
    forall m, eqv (pt P) (E v) (scaled (sc v) m) -> eqv (pt P) m (C v).
Proof.
  intros P lev p st ev C E sc delta (Ht & Hq) Hi W Ops R An Hd X v Iv Sv.
  assert (A : forall u s, st u = Some s -> annotation st u = Some s /\ sc u = s).
  { intros u s Es. destruct (st_units P lev p st Ht Hq R u s Es) as (B & _).
    assert (K : annotation st u = Some s).
    { unfold annotation. rewrite Es. cbn [option_map]. f_equal. rewrite Z.mod_small by lia. lia. }
    split; [exact K|]. now apply An. }
  assert (M : managed p v = true) by (unfold managed; now rewrite Sv).
  assert (N : st v <> None) by (destruct R as [_ _ Al]; exact (Al v Iv M)).
  destruct (st v) as [s|] eqn:Es; [|easy]. destruct (A v s Es) as (A1 & A2). rewrite A2. split; [easy|].
  assert (Q : eqv (pt P) (E v) (scaled s (C v))).
  { refine (all_payloads P lev p st ev C E sc delta Ht Hq W R _ _ _ _ _ _ _ _ v Iv M s Es).
    - intros i I Se. specialize (Ops i I Se). destruct (op i); easy.
    - intros i I Se Mo. specialize (Ops i I Se). destruct (op i); easy.
    - apply X.
    - apply X.
    - intros u x E1. now apply A.
    - intros i k a x x' I O Ar E1 E2. specialize (Hd i k a I O Ar). rewrite (proj2 (A _ _ E1)), (proj2 (A _ _ E2)) in Hd. exact Hd.
    - intros u x I E1. pose proof (ex_input _ _ _ _ _ _ _ _ _ X u I) as H. now rewrite (proj2 (A _ _ E1)) in H.
    - apply X. }
  split; [exact Q|]. intros m Qm k. destruct (st_units P lev p st Ht Hq R v s Es) as (_ & G).
  apply (eqm_cancel (pt P) ltac:(lia) _ _ s G). specialize (Q k). specialize (Qm k). unfold scaled in *.
  rewrite (Z.mul_comm (m k)), (Z.mul_comm (C v k)). eapply eqm_trans; [apply eqm_sym, Qm|exact Q].
Qed.
Print Assumptions C70_correct.

Theorem C70_complete : forall P lev p sc,
  good_moduli P -> pt P <= 3037000500 -> wf p -> consistent (pt P) (qi P) lev p sc ->
  (forall dbg st, scale_steps dbg P lev p (scale_start p) st ->
     (forall v s, st v = Some s -> s = sc v) /\
     forall i, In i (body p) -> exists f b, forward dbg P lev p st i = Some f /\ backward P lev p st i = Some b /\
       forall v s, In (v, s) (f ++ b) -> propagate dbg st v s <> None) /\
  (forall dbg st, scale_bgv dbg P lev p st -> forall v, In v (values p) -> managed p v = true -> st v = Some (sc v)) /\
  (forall st, scale_bgv false P lev p st -> scale_bgv true P lev p st).
Proof.
  intros P lev p sc (Ht & Hq) Hs W Co. assert (Small : (pt P - 1) * (pt P - 1) < 2 ^ 63) by nia.
  split; [|split].
  - intros dbg st H. split.
    + intros v s E. symmetry. exact (steps_below P lev p sc Ht Small Hq W Co _ _ _ (start_below P lev p sc Ht Co) H v s E).
    + exact (never_fails P lev p sc Ht Small Hq W Co dbg st H).
  - intros dbg st. exact (fun R v => result_exact P lev p sc Ht Small Hq W Co dbg st v R).
  - exact (release_result P lev p sc Ht Small Hq W Co).
Qed.
Print Assumptions C70_complete.

(** ** An example: rotate (x^3) + x *)
Module Cube.
  Local Open Scope nat_scope.
  Definition src := Prog [0] [1] [Inst Mul [0; 0] 2; Inst Mul [2; 0] 3; Inst (Other 1) [3; 1] 4; Inst Add [4; 0] 5] [5].
  Definition p := insert_all false (BeforeMul false) 100 src.
  Definition lev (v : nat) : nat := match annotate_level 0 40 p v with Some l => l | None => 0 end.
  Local Open Scope Z_scope.
  Definition P := Bgv 17 [11; 3; 7].
  Definition st : smap := match visits true P lev p (scale_start p) (times 3 (plan p)) with Some st => st | None => fun _ => None end.
  Definition sc (v : nat) : Z := match st v with Some s => s | None => 0 end.
  (** rotation by one slot *)
  Definition ev (_ : opk) (l : list slots) : slots := fun k => hd (fun _ => 0) l (S k).
  Definition x : slots := fun k => match k with O => 2 | _ => 3 end.
  (** messages *)
  Definition cl (C : nat -> slots) (i : inst) : slots :=
    match op i, args i with
    | Add, [a; b] => fun k => C a k + C b k
    | Mul, [a; b] => fun k => C a k * C b k
    | Other _, l => ev (op i) (map C l)
    | _, a :: _ => C a
    | _, _ => fun _ => 0
    end.
  Definition C : nat -> slots := flow cl (fun v => match v with O => x | _ => fun _ => 1 end) (body p).
  Definition E (v : nat) : slots := if managed p v then scaled (sc v) (C v) else C v.
  Definition delta (v : nat) : option Z :=
    match find (fun i => Nat.eqb (res i) v) (body p) with
    | Some i => match materialize (delta_bgv P) (sc v) (sc (hd 0%nat (args i))) with Some d => d | None => None end
    | None => None
    end.
End Cube.

Ltac each p := change (body p) with ltac:(let l := eval vm_compute in (body p) in exact l); intros I.
Ltac cases I := repeat (destruct I as [<-|I]); [..|destruct I].
Lemma cube_moduli : good_moduli Cube.P.
Proof. split; [vm_compute; split; reflexivity|]. intros q H. repeat (destruct H as [<-|H]); try easy; vm_compute; split; reflexivity. Qed.
Lemma cube_wf : wf Cube.p.
Proof.
  unfold wf. change Cube.p with ltac:(let l := eval vm_compute in Cube.p in exact l). cbn. repeat split; try easy.
  all: try (intros v H; cbn in *; tauto). all: try lia. all: intros; lia.
Qed.
Lemma cube_scales : scale_bgv true Cube.P Cube.lev Cube.p Cube.st.
Proof.
  apply scale_run with (n := 3%nat); [|vm_compute; reflexivity].
  assert (H : match visits true Cube.P Cube.lev Cube.p (scale_start Cube.p) (times 3 (plan Cube.p)) with Some _ => true | None => false end = true) by (vm_compute; reflexivity).
  unfold Cube.st. destruct (visits _ _ _ _ _ _); [reflexivity|discriminate].
Qed.
Example C70_nonvacuous :
  good_moduli Cube.P /\ wf Cube.p /\ scheme_ops (pt Cube.P) Cube.ev Cube.p /\
  scale_bgv true Cube.P Cube.lev Cube.p Cube.st /\
  materialized Cube.P Cube.p Cube.sc Cube.delta /\
  execution (pt Cube.P) (qi Cube.P) Cube.lev Cube.ev Cube.p Cube.C Cube.E Cube.sc Cube.delta /\
  consistent (pt Cube.P) (qi Cube.P) Cube.lev Cube.p Cube.sc /\
  (forall v s, annotation Cube.st v = Some s -> Cube.sc v = s) /\
  Cube.st 8%nat = Some 14 /\ Cube.C 8%nat 0%nat = 29 /\ Cube.delta 11%nat = Some 5.
Proof.
  split; [exact cube_moduli|]. split; [exact cube_wf|].
  split. { intros i. each Cube.p. cases I; cbn [op args]; try exact (fun _ => Logic.I).
    all: try (intros _ v [<-|[<-|[]]]; vm_compute; reflexivity).
    intros _ s C E H k. cbn. specialize (H 3%nat (or_introl eq_refl)). vm_compute in H. apply H. }
  split; [exact cube_scales|].
  split. { intros i k a. each Cube.p. cases I; cbn [op args res]; try discriminate; intros _ [= <-]; vm_compute; reflexivity. }
  split. { split.
    - intros i. each Cube.p. cases I; cbn [clear_op op args res]; try (vm_compute; reflexivity); intros k; destruct k as [|[|k]]; vm_compute; reflexivity.
    - intros i. each Cube.p. cases I; intros _; unfold exec_op; cbn [op args res];
        try lazymatch goal with |- match Cube.delta ?v with _ => _ end => let d := eval vm_compute in (Cube.delta v) in change (Cube.delta v) with d; cbn iota end;
        try (intros k; destruct k as [|[|k]]; vm_compute; reflexivity); try reflexivity.
    - change (sargs Cube.p) with [0%nat]. intros v [<-|[]] k. destruct k; vm_compute; reflexivity.
    - intros v H. unfold Cube.E. now rewrite H. }
  split. { split.
    - intros v H. pose proof (managed_value _ _ H) as I. revert H I. change (values Cube.p) with ltac:(let l := eval vm_compute in (values Cube.p) in exact l).
      intros H I. cases I; try (vm_compute in H; discriminate); vm_compute; repeat split; discriminate.
    - change (sargs Cube.p) with [0%nat]. intros v [<-|[]]. vm_compute. reflexivity.
    - intros i. each Cube.p. cases I; discriminate.
    - intros i. each Cube.p. cases I; cbn [op args res]; intros _;
        try exact Logic.I; try (intros v H; repeat (destruct H as [<-|H]); [..|destruct H]; vm_compute; reflexivity).
      + exists 0%nat, 0%nat. repeat split; vm_compute; reflexivity.
      + eexists _, _. split; [reflexivity|]. split; [vm_compute; reflexivity|]. vm_compute. repeat split; discriminate.
      + eexists _, _. split; [reflexivity|]. split; [vm_compute; reflexivity|]. vm_compute. repeat split; discriminate.
      + exists 6%nat, 13%nat. repeat split; vm_compute; reflexivity.
      + eexists _, _. split; [reflexivity|]. split; [vm_compute; reflexivity|]. vm_compute. repeat split; discriminate.
      + eexists _, _. split; [reflexivity|]. split; [vm_compute; reflexivity|]. vm_compute. repeat split; discriminate. }
  split. { intros v s. unfold annotation, Cube.sc. destruct (Cube.st v) as [x|] eqn:Ex; [|discriminate]. cbn [option_map]. intros [= <-].
    destruct (st_units Cube.P Cube.lev Cube.p Cube.st (proj1 cube_moduli) (proj2 cube_moduli) cube_scales v x Ex) as (B & _).
    change (pt Cube.P) with 17 in B. rewrite Z.mod_small by lia. lia. }
  repeat split; vm_compute; reflexivity.
Qed.

(** ** A plaintext operand of a product or sum is encoded at scale 1 whatever the scale of the ciphertext *)
Module Quartic.
  Local Open Scope nat_scope.
  (** x^4 + c *)
  Definition src := Prog [0] [1] [Inst Mul [0; 0] 2; Inst Mul [2; 2] 3; Inst Add [3; 1] 4] [4].
  Definition p := insert_all false (BeforeMul false) 100 src.
  Definition lev (v : nat) : nat := match annotate_level 0 40 p v with Some l => l | None => 0 end.
  Local Open Scope Z_scope.
  Definition P := Bgv 17 [11; 3; 7].
  Definition st : smap := match visits false P lev p (scale_start p) (times 3 (plan p)) with Some st => st | None => fun _ => None end.
  Definition sc (v : nat) : Z := match st v with Some s => s | None => 0 end.
  Definition ev (_ : opk) (l : list slots) : slots := hd (fun _ => 0) l.
  Definition cl (C : nat -> slots) (i : inst) : slots :=
    match op i, args i with
    | Add, [a; b] => fun k => C a k + C b k
    | Mul, [a; b] => fun k => C a k * C b k
    | _, a :: _ => C a
    | _, _ => fun _ => 0
    end.
  (** x = 2, c = 3 *)
  Definition C : nat -> slots := flow cl (fun v => match v with O => fun _ => 2 | _ => fun _ => 3 end) (body p).
  Definition run1 (E : nat -> slots) (i : inst) : slots :=
    match op i, args i with
    | Add, [a; b] => fun k => (E a k + E b k) mod 17
    | Mul, [a; b] => fun k => (E a k * E b k) mod 17
    | ModReduce, [a] => match multiplicative_inverse 64 (nth (lev a) (qi P) 0) 17 with Some j => fun k => (E a k * j) mod 17 | None => E a end
    | _, a :: _ => E a
    | _, _ => fun _ => 0
    end.
  Definition E : nat -> slots := flow run1 (fun v => match v with O => fun _ => 2 | _ => fun _ => 3 end) (body p).
End Quartic.
Definition quartic_q : prog := ltac:(let l := eval vm_compute in Quartic.p in exact l).
Lemma quartic_eq : Quartic.p = quartic_q.
Proof. vm_compute. reflexivity. Qed.
Lemma quartic_steps : scale_bgv false Quartic.P Quartic.lev Quartic.p Quartic.st.
Proof.
  apply scale_run with (n := 3%nat); [|vm_compute; reflexivity].
  assert (H : match visits false Quartic.P Quartic.lev Quartic.p (scale_start Quartic.p) (times 3 (plan Quartic.p)) with Some _ => true | None => false end = true) by (vm_compute; reflexivity).
  unfold Quartic.st. destruct (visits _ _ _ _ _ _); [reflexivity|discriminate].
Qed.
Theorem C70_plaintext_refuted : exists P lev src,
  let p := insert_all false (BeforeMul false) 100 src in
  good_moduli P /\ wf p /\ (forall st, ~ scale_bgv true P lev p st) /\
  exists st sc ev C E out, scale_bgv false P lev p st /\ (forall v s, st v = Some s -> sc v = s) /\
    scheme_ops (pt P) ev p /\ execution (pt P) (qi P) lev ev p C E sc (fun _ => None) /\
    outs p = [out] /\ secret p out = true /\ ~ eqv (pt P) (E out) (scaled (sc out) (C out)).
Proof.
  exists Quartic.P, Quartic.lev, Quartic.src. change (insert_all false (BeforeMul false) 100 Quartic.src) with Quartic.p. cbn zeta.
  split. { split; [vm_compute; split; reflexivity|]. intros q H. repeat (destruct H as [<-|H]); try easy; vm_compute; split; reflexivity. }
  split. { unfold wf. change Quartic.p with ltac:(let l := eval vm_compute in Quartic.p in exact l). cbn. repeat split; try easy.
    all: try (intros v H; cbn in *; tauto). all: try lia. all: intros; lia. }
  split.
  { rewrite quartic_eq. intros st [S T _].
    assert (S0 : st 0%nat = Some 1) by (apply (start_kept _ _ _ _ _ _ 0%nat 1 S); reflexivity).
    assert (F : forall i f v s, In i (body quartic_q) -> forward true Quartic.P Quartic.lev quartic_q st i = Some f -> In (v, s) f -> st v = Some s).
    { intros i f v s I Hf If. destruct (T i I) as (f' & b & E & _ & X). rewrite Hf in E. injection E as <-.
      apply propagate_fix, X. apply in_or_app. left. exact If. }
    assert (S9 : st 9%nat = Some 1).
    { apply (F (Inst Mul [0%nat; 0%nat] 9) [(9%nat, 1)] 9%nat 1); [left; reflexivity| |left; reflexivity].
      unfold forward. cbn [op args res]. change (filter _ _) with [0%nat; 0%nat]. cbn [operand_scales]. rewrite S0. reflexivity. }
    assert (S2 : st 2%nat = Some 1).
    { apply (F (Inst Relin [9%nat] 2) [(2%nat, 1)] 2%nat 1); [right; left; reflexivity| |left; reflexivity].
      unfold forward. cbn [op args res]. change (filter _ _) with [9%nat]. cbn [operand_scales]. rewrite S9. reflexivity. }
    assert (S6 : st 6%nat = Some 5).
    { apply (F (Inst ModReduce [2%nat] 6) [(6%nat, 5)] 6%nat 5); [do 2 right; left; reflexivity| |left; reflexivity].
      unfold forward. cbn [op args res]. change (filter _ _) with [2%nat]. cbn [operand_scales]. rewrite S2. vm_compute. reflexivity. }
    assert (S10 : st 10%nat = Some 8).
    { apply (F (Inst Mul [6%nat; 6%nat] 10) [(10%nat, 8)] 10%nat 8); [do 4 right; left; reflexivity| |left; reflexivity].
      unfold forward. cbn [op args res]. change (filter _ _) with [6%nat; 6%nat]. cbn [operand_scales]. rewrite S6. reflexivity. }
    assert (S3 : st 3%nat = Some 8).
    { apply (F (Inst Relin [10%nat] 3) [(3%nat, 8)] 3%nat 8); [do 5 right; left; reflexivity| |left; reflexivity].
      unfold forward. cbn [op args res]. change (filter _ _) with [10%nat]. cbn [operand_scales]. rewrite S10. reflexivity. }
    assert (S5 : st 5%nat = Some 1).
    { apply (F (Inst Init [1%nat] 5) [(5%nat, 1)] 5%nat 1); [do 6 right; left; reflexivity| |left; reflexivity]. reflexivity. }
    destruct (T (Inst Add [3%nat; 5%nat] 4)) as (f & b & Hf & _); [do 7 right; left; reflexivity|].
    unfold forward in Hf. cbn [op args res] in Hf. change (filter _ _) with [3%nat; 5%nat] in Hf. cbn [operand_scales] in Hf. rewrite S3, S5 in Hf.
    discriminate. }
  exists Quartic.st, Quartic.sc, Quartic.ev, Quartic.C, Quartic.E, 8%nat. split; [exact quartic_steps|].
  split. { intros v s H. unfold Quartic.sc. now rewrite H. }
  split. { intros i. each Quartic.p. cases I; cbn [op args]; try exact (fun _ => Logic.I).
    all: intros _ v [<-|[<-|[]]]; vm_compute; reflexivity. }
  split. { split.
    - intros i. each Quartic.p. cases I; cbn [clear_op op args res]; try (intros k; vm_compute; reflexivity); reflexivity.
    - intros i. each Quartic.p. cases I; intros H; try (vm_compute in H; discriminate); unfold exec_op; cbn [op args res];
        try (intros k; vm_compute; reflexivity); reflexivity.
    - change (sargs Quartic.p) with [0%nat]. intros v [<-|[]] k. vm_compute. reflexivity.
    - intros v H. assert (N : In v (values Quartic.p) \/ ~ In v (values Quartic.p)) by (destruct (in_dec Nat.eq_dec v (values Quartic.p)) as [X|X]; [left|right]; exact X).
      destruct N as [I|N].
      + revert H I. change (values Quartic.p) with ltac:(let l := eval vm_compute in (values Quartic.p) in exact l).
        intros H I. cases I; try (vm_compute in H; discriminate); reflexivity.
      + unfold Quartic.E, Quartic.C. rewrite !flow_other; [destruct v; reflexivity| |]; intros I; apply N; unfold values; apply in_or_app; right; apply in_or_app; right; exact I. }
  split; [vm_compute; reflexivity|]. split; [vm_compute; reflexivity|].
  intros H. specialize (H 0%nat). vm_compute in H. discriminate.
Qed.
Print Assumptions C70_plaintext_refuted.

Module Shared.
  Local Open Scope nat_scope.
  (** rotate (rotate (x, k)^4, k) *)
  Definition src := Prog [0] [1] [Inst (Other 1) [0; 1] 2; Inst Mul [2; 2] 3; Inst Mul [3; 3] 4; Inst (Other 1) [4; 1] 5] [5].
  Definition p := insert_all false (BeforeMul false) 100 src.
  Definition lev (v : nat) : nat := match annotate_level 0 40 p v with Some l => l | None => 0 end.
End Shared.
Definition shared_q : prog := ltac:(let l := eval vm_compute in Shared.p in exact l).
Lemma shared_eq : Shared.p = shared_q.
Proof. vm_compute. reflexivity. Qed.
(** ** The amount of a rotation gets the scale of the ciphertext, so it cannot be shared between scales *)
Theorem C70_shared_index_refuted : exists P lev src,
  let p := insert_all false (BeforeMul false) 100 src in
  good_moduli P /\ wf p /\ (forall st, ~ scale_bgv true P lev p st) /\
  exists sc, (forall v, managed p v = true -> unit_mod (pt P) (sc v)) /\ (forall v, In v (sargs p) -> sc v = 1) /\
    forall i, In i (body p) ->
      match op i, args i with
      | Mul, [a; b] => sc (res i) = (sc a * sc b) mod pt P
      | ModReduce, [a] => eqm (pt P) (sc (res i) * nth (lev a) (qi P) 0) (sc a)
      | AdjustScale _, _ => True
      | _, l => forall v, In v l -> managed p v = true -> sc v = sc (res i)
      end.
Proof.
  exists Quartic.P, Shared.lev, Shared.src. change (insert_all false (BeforeMul false) 100 Shared.src) with Shared.p. cbn zeta.
  rewrite shared_eq.
  split. { split; [vm_compute; split; reflexivity|]. intros q H. repeat (destruct H as [<-|H]); try easy; vm_compute; split; reflexivity. }
  split. { unfold wf. cbn. repeat split; try easy.
    all: try (intros v H; cbn in *; tauto). all: try lia. all: intros; lia. }
  split.
  { intros st [S T _].
    assert (S0 : st 0%nat = Some 1) by (apply (start_kept _ _ _ _ _ _ 0%nat 1 S); reflexivity).
    assert (F : forall i f v s, In i (body shared_q) -> forward true Quartic.P Shared.lev shared_q st i = Some f -> In (v, s) f -> st v = Some s).
    { intros i f v s I Hf If. destruct (T i I) as (f' & b & E & _ & X). rewrite Hf in E. injection E as <-.
      apply propagate_fix, X. apply in_or_app. left. exact If. }
    assert (B : forall i b v s, In i (body shared_q) -> backward Quartic.P Shared.lev shared_q st i = Some b -> In (v, s) b -> st v = Some s).
    { intros i b v s I Hb Ib. destruct (T i I) as (f & b' & _ & E & X). rewrite Hb in E. injection E as <-.
      apply propagate_fix, X. apply in_or_app. right. exact Ib. }
    assert (S2 : st 2%nat = Some 1).
    { apply (F (Inst (Other 1) [0%nat; 1%nat] 2) [(2%nat, 1)] 2%nat 1); [left; reflexivity| |left; reflexivity].
      unfold forward. cbn [op args res]. change (filter _ _) with [0%nat]. cbn [operand_scales]. rewrite S0. reflexivity. }
    assert (S9 : st 9%nat = Some 1).
    { apply (F (Inst Mul [2%nat; 2%nat] 9) [(9%nat, 1)] 9%nat 1); [do 1 right; left; reflexivity| |left; reflexivity].
      unfold forward. cbn [op args res]. change (filter _ _) with [2%nat; 2%nat]. cbn [operand_scales]. rewrite S2. reflexivity. }
    assert (S3 : st 3%nat = Some 1).
    { apply (F (Inst Relin [9%nat] 3) [(3%nat, 1)] 3%nat 1); [do 2 right; left; reflexivity| |left; reflexivity].
      unfold forward. cbn [op args res]. change (filter _ _) with [9%nat]. cbn [operand_scales]. rewrite S9. reflexivity. }
    assert (S6 : st 6%nat = Some 5).
    { apply (F (Inst ModReduce [3%nat] 6) [(6%nat, 5)] 6%nat 5); [do 3 right; left; reflexivity| |left; reflexivity].
      unfold forward. cbn [op args res]. change (filter _ _) with [3%nat]. cbn [operand_scales]. rewrite S3. vm_compute. reflexivity. }
    assert (S10 : st 10%nat = Some 8).
    { apply (F (Inst Mul [6%nat; 6%nat] 10) [(10%nat, 8)] 10%nat 8); [do 5 right; left; reflexivity| |left; reflexivity].
      unfold forward. cbn [op args res]. change (filter _ _) with [6%nat; 6%nat]. cbn [operand_scales]. rewrite S6. reflexivity. }
    assert (S4 : st 4%nat = Some 8).
    { apply (F (Inst Relin [10%nat] 4) [(4%nat, 8)] 4%nat 8); [do 6 right; left; reflexivity| |left; reflexivity].
      unfold forward. cbn [op args res]. change (filter _ _) with [10%nat]. cbn [operand_scales]. rewrite S10. reflexivity. }
    assert (S5 : st 5%nat = Some 8).
    { apply (F (Inst (Other 1) [4%nat; 1%nat] 5) [(5%nat, 8)] 5%nat 8); [do 7 right; left; reflexivity| |left; reflexivity].
      unfold forward. cbn [op args res]. change (filter _ _) with [4%nat]. cbn [operand_scales]. rewrite S4. reflexivity. }
    assert (K1 : st 1%nat = Some 1).
    { apply (B (Inst (Other 1) [0%nat; 1%nat] 2) [(0%nat, 1); (1%nat, 1)]); [left; reflexivity| |right; left; reflexivity].
      unfold backward. cbn [op args res]. change (secret shared_q 2%nat) with true. cbv iota. rewrite S2. destruct (split_scales _ _). reflexivity. }
    assert (K2 : st 1%nat = Some 8).
    { apply (B (Inst (Other 1) [4%nat; 1%nat] 5) [(4%nat, 8); (1%nat, 8)]); [do 7 right; left; reflexivity| |right; left; reflexivity].
      unfold backward. cbn [op args res]. change (secret shared_q 5%nat) with true. cbv iota. rewrite S5. destruct (split_scales _ _). reflexivity. }
    rewrite K1 in K2. discriminate. }
  exists (fun v => nth v [1; 0; 1; 1; 8; 8; 5; 5; 14; 1; 8] 1). split; [|split].
  - intros v H. apply managed_value in H as I. revert H. cases I; intros H; try (vm_compute in H; discriminate); vm_compute; repeat split; discriminate.
  - intros v [<-|[]]. reflexivity.
  - intros i I. cases I; cbn [op args res]; try (vm_compute; reflexivity);
      intros v H M; repeat (destruct H as [<-|H]); try destruct H; try (vm_compute in M; discriminate); reflexivity.
Qed.
Print Assumptions C70_shared_index_refuted.

(** ** Products of scales overflow for plaintext moduli above 2^31.5 *)
Theorem C70_overflow_refuted : exists P lev p sc st i,
  good_moduli P /\ wf p /\ consistent (pt P) (qi P) lev p sc /\
  scale_steps false P lev p (scale_start p) st /\ In i (body p) /\ forward false P lev p st i = None.
Proof.
  set (p := Prog [0%nat] [] [Inst ModReduce [0%nat] 1; Inst Mul [1%nat; 1%nat] 2] [2%nat]).
  set (t := 4294967291).
  exists (Bgv t [t - 1]), (fun _ => 0%nat), p, (fun v => match v with 1%nat => t - 1 | _ => 1 end), (upd (scale_start p) 1%nat (Some (t - 1))), (Inst Mul [1%nat; 1%nat] 2).
  split. { split; [vm_compute; split; reflexivity|]. intros q H. repeat (destruct H as [<-|H]); try easy; vm_compute; split; reflexivity. }
  split. { unfold wf. cbn. repeat split; try easy.
    all: try (intros v H; cbn in *; tauto). all: try lia. all: intros; lia. }
  split. { split.
    - intros v _. destruct v as [|[|v]]; vm_compute; repeat split; discriminate.
    - intros v [<-|[]]. reflexivity.
    - intros i I. cases I; discriminate.
    - intros i I. cases I; intros _; cbn [op args res].
      + exists 0%nat, (t - 1). vm_compute. repeat split; discriminate.
      + exists 1%nat, 1%nat. vm_compute. repeat split; reflexivity. }
  split. { econstructor; [constructor|]. eapply Scale_step with (i := Inst ModReduce [0%nat] 1) (f := [(1%nat, t - 1)]); [left; reflexivity| |left; reflexivity|reflexivity].
    left. vm_compute. reflexivity. }
  split; [right; left; reflexivity|]. vm_compute. reflexivity.
Qed.
Print Assumptions C70_overflow_refuted.

(** ** The annotation truncates scales to 32 bits *)
Theorem C70_truncation_refuted : exists P lev p st v s s',
  good_moduli P /\ pt P < 2 ^ 31 + 12 /\ wf p /\ scale_bgv true P lev p st /\ outs p = [v] /\
  st v = Some s /\ annotation st v = Some s' /\ ~ eqm (pt P) s s'.
Proof.
  set (p := Prog [0%nat] [] [Inst ModReduce [0%nat] 1] [1%nat]). set (t := 2147483659).
  exists (Bgv t [t - 1]), (fun _ => 0%nat), p, (upd (scale_start p) 1%nat (Some (t - 1))), 1%nat, (t - 1), (t - 1 - 2 ^ 32).
  split. { split; [vm_compute; split; reflexivity|]. intros q H. repeat (destruct H as [<-|H]); try easy; vm_compute; split; reflexivity. }
  split; [reflexivity|].
  split. { unfold wf. cbn. repeat split; try easy.
    all: try (intros v H; cbn in *; tauto). all: try lia. all: intros; lia. }
  split. { split.
    - econstructor; [constructor|]. eapply Scale_step with (i := Inst ModReduce [0%nat] 1) (f := [(1%nat, t - 1)]); [left; reflexivity| |left; reflexivity|reflexivity].
      left. vm_compute. reflexivity.
    - intros i [<-|[]]. exists [(1%nat, t - 1)], []. split; [vm_compute; reflexivity|]. split; [reflexivity|].
      intros v s [[= <- <-]|[]]. vm_compute. reflexivity.
    - intros v [<-|[<-|[]]] _; vm_compute; discriminate. }
  split; [reflexivity|]. split; [reflexivity|]. split; [reflexivity|]. vm_compute. discriminate.
Qed.
Print Assumptions C70_truncation_refuted.
