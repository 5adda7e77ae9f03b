(** C71: scales of CKKS ciphertexts. *)
From Coq Require Import ZArith QArith List Bool Lia Permutation.
From Verif Require Import Mgmt_Model Mgmt_Spec Scale_Model Scale_Proofs ScaleCkks_Model ScaleCkks_Spec ScaleCkks_Proofs ScaleCkks_Main ScaleCkks_Payload.
Import ListNotations.
Open Scope Z_scope.

Definition good_params (P : ckks) : Prop := 0 < ld P /\ forall x, In x (lq P) -> 0 <= x.
(** the logarithm of the modulus that is dropped at a level: the default scale if there is no such modulus *)
Definition dropped (P : ckks) (l : nat) : Z := nth l (lq P) (ld P).
Definition first_scale (P : ckks) (first : bool) : Z := if first then 2 * ld P else ld P.
Definition scale_of (r : result) (v : nat) : Z := match r_scale r v with Some s => s | None => 0 end.
Lemma params_lq P : good_params P -> 0 < ld P /\ forall l, 0 <= lq_at P l.
Proof.
  intros (A & B). split; [easy|]. intros l. unfold lq_at. destruct (nth_in_or_default l (lq P) (ld P)) as [I|E]; [now apply B|rewrite E; lia].
Qed.
Lemma first_input P first : first_scale P first = input_scale P first.
Proof. unfold first_scale, input_scale. destruct first; lia. Qed.

Theorem C71_scales : forall P first lev p b,
  good_params P -> wf p -> estimate (ld P) (first_scale P first) (dropped P) lev p b ->
  exists r, populate P first lev p = Some r /\ wf (r_prog r) /\
    sargs (r_prog r) = sargs p /\ pargs (r_prog r) = pargs p /\ outs (r_prog r) = outs p /\
    (forall v, In v (values (r_prog r)) -> managed (r_prog r) v = true -> r_scale r v <> None) /\
    (forall i, In i (body (r_prog r)) -> managed (r_prog r) (res i) = true ->
       scale_rule (dropped P) (r_lev r) (r_prog r) (scale_of r) i) /\
    (forall v, managed p v = true -> managed (r_prog r) v = true /\ r_lev r v = lev v /\ r_scale r v = Some (Z.max (b v) (ld P))).
Proof.
  intros P first lev p b G W Est. destruct (params_lq P G) as (HD & Hq). rewrite first_input in Est. change (dropped P) with (lq_at P) in *.
  exists (final P first lev p). split; [now apply (populate_some P first lev p b)|]. cbn [final r_prog r_lev r_scale].
  assert (Sc : forall v, In v (values (q2 P first lev p)) -> managed (q2 P first lev p) v = true ->
     r_scale (final P first lev p) v = Some (sc P first lev p b v)).
  { intros v V M. cbn [final r_scale]. rewrite (st_f2 P first lev p b HD Hq W Est v V). now apply (f2_managed P first lev p b HD Hq W Est). }
  split; [now apply (W2 P first lev p)|]. split; [easy|]. split; [easy|]. split; [easy|]. split; [|split].
  - intros v V M. specialize (Sc v V M). cbn [final r_scale] in Sc. now rewrite Sc.
  - intros i I M. pose proof (rules P first lev p b HD Hq W Est i I M) as R.
    assert (S1 : forall v, In v (values (q2 P first lev p)) -> managed (q2 P first lev p) v = true ->
       scale_of (final P first lev p) v = sc P first lev p b v) by (intros v V Mv; unfold scale_of; now rewrite (Sc v V Mv)).
    pose proof (S1 (res i) (res_values2 P first lev p i I) M) as Er.
    assert (Va : forall v, In v (args i) -> In v (values (q2 P first lev p))) by (intros v V; now apply (arg_values2 P first lev p W i)).
    unfold scale_rule in *. rewrite Er. destruct (managed_cases _ i (W2 P first lev p W) I M) as [O|(O & Se & u & U & Mu)]; [now rewrite O|].
    assert (Sa : match op i with Mul | ModReduce | AdjustScale _ => forall v, In v (args i) -> managed (q2 P first lev p) v = true | _ => True end).
    { destruct (op i) eqn:Oi; auto.
      - destruct (each2 P first lev p b Est i I) as [(j & v & t & jj & Ij & V & Wt & X & Jb & E)|(j & l' & Ij & E & F)].
        + exfalso. destruct (adj_merge P first lev p v t jj X) as [(Em & _)|(d & _ & _ & _ & Em)]; rewrite E, Em in Oi; [|easy].
          destruct X as ((k & Ok) & _). congruence.
        + subst i. cbn [op args res] in *.
          assert (Mj : managed p (res j) = true).
          { rewrite <- (mg_old P first lev p b W Est); [exact M|]. unfold values. rewrite !in_app_iff. right. right. now apply in_map. }
          destruct (existsb (managed p) (args j)) eqn:Ex.
          * destruct (est_op _ _ _ _ _ _ Est j Ij) as (_ & H); [now rewrite Oi|exact Ex|]. rewrite Oi in H.
            destruct H as (x & y & A & Mx & My & _). intros v V. destruct (sc_args P first lev p b HD Hq W Est j l' v Ij F V) as (w & Wi & _ & ->).
            rewrite A in Wi. now destruct Wi as [<-|[<-|[]]].
          * rewrite (unmanaged p W j Ij) in Mj; [easy|now rewrite Oi|exact Ex].
      - destruct R as (a & A & _). rewrite A in U |- *. intros v [<-|[]]. now destruct U as [<-|[]].
      - destruct R as (a & A & _). rewrite A in U |- *. intros v [<-|[]]. now destruct U as [<-|[]]. }
    destruct (op i) eqn:Oi; auto.
    1,2,3,5,6,8,9,10: intros v V Mv; rewrite S1 by auto; now apply R.
    + destruct R as (x & y & A & R). exists x, y. split; [easy|]. rewrite A in *. rewrite !S1 by (try apply Va; try apply Sa; cbn; auto). exact R.
    + destruct R as (x & A & R). exists x. split; [easy|]. rewrite A in *. rewrite !S1 by (try apply Va; try apply Sa; cbn; auto). exact R.
    + destruct R as (x & A & R). exists x. split; [easy|]. rewrite A in *. rewrite !S1 by (try apply Va; try apply Sa; cbn; auto). exact R.
  - intros v M. pose proof (managed_value p v M) as V.
    assert (M2 : managed (q2 P first lev p) v = true) by now rewrite (mg_old P first lev p b W Est).
    split; [easy|]. split; [apply lev_old; now apply value_N|].
    pose proof (Sc v (values2 P first lev p b Est v V) M2) as E. cbn [final r_scale] in E. rewrite E. f_equal. now apply sc_old.
Qed.
Print Assumptions C71_scales.

Theorem C71_correct : forall P first lev p b ev r C E,
  good_params P -> wf p -> estimate (ld P) (first_scale P first) (dropped P) lev p b -> proper ev -> scheme_ops ev p ->
  populate P first lev p = Some r ->
  execution (dropped P) (r_lev r) ev (r_prog r) C E (scale_of r) (r_delta r) ->
  (forall i, In i (body p) -> clear_op ev C i) /\
  forall v, secret p v = true -> eqs (E v) (scaled (scale_of r v) (C v)) /\
    forall m, eqs (E v) (scaled (scale_of r v) m) -> eqs m (C v).
Proof.
  intros P first lev p b ev r C E G W Est Pr Ops Po X.
  destruct (C71_scales P first lev p b G W Est) as (r' & Po' & W' & _ & _ & _ & _ & Ru & Old).
  rewrite Po in Po'. injection Po' as <-.
  destruct (params_lq P G) as (HD & Hq). rewrite first_input in Est. change (dropped P) with (lq_at P) in *.
  rewrite (populate_some P first lev p b HD Hq W Est) in Po. injection Po as <-.
  split; [exact (clear2 P first lev p b Est ev C Pr (ex_clear _ _ _ _ _ _ _ _ X))|].
  intros v S. assert (Mp : managed p v = true) by (unfold managed; now rewrite S). destruct (Old v Mp) as (M & _ & _).
  assert (Q : eqs (E v) (scaled (scale_of (final P first lev p) v) (C v))).
  { apply (payload (lq_at P) (r_lev (final P first lev p)) ev (r_prog (final P first lev p)) C E _ (r_delta (final P first lev p)) W'); auto.
    - now apply (ops2 P first lev p b HD Hq W Est).
    - intros i k I O. destruct (delta2 P first lev p b HD Hq W Est i k I O) as (u & A & Mu & D). exists u. split; [easy|]. split; [easy|].
      cbn [final r_delta]. rewrite D.
      assert (Sc : forall w, In w (values (q2 P first lev p)) -> managed (q2 P first lev p) w = true -> scale_of (final P first lev p) w = sc P first lev p b w).
      { intros w V Mw. unfold scale_of. cbn [final r_scale]. rewrite (st_f2 P first lev p b HD Hq W Est w V). now rewrite (f2_managed P first lev p b HD Hq W Est). }
      rewrite !Sc; auto.
      + apply (arg_values2 P first lev p W i); [easy|]. rewrite A. now left.
      + now apply res_values2.
      + destruct (adj_delta P first lev p b HD Hq W Est i k I O) as (_ & _ & _ & _ & Mr & _). exact Mr.
    - now apply managed_value. }
  split; [exact Q|]. intros m Qm. apply (scaled_cancel (scale_of (final P first lev p) v)). eapply eqs_trans; [apply eqs_sym, Qm|exact Q].
Qed.
Print Assumptions C71_correct.

(** ** An example: rotate (x^3) + c * x + c *)
Module Poly.
  Local Open Scope nat_scope.
  Definition src := Prog [0] [1; 9] [Inst Mul [0; 0] 2; Inst Mul [2; 0] 3; Inst (Other 1) [3; 9] 6; Inst Mul [0; 1] 4; Inst Add [6; 4] 5; Inst Add [5; 1] 7] [7].
  Definition p := insert_all true (BeforeMul false) 100 src.
  Definition lev (v : nat) : nat := match annotate_level 0 40 p v with Some l => l | None => 0 end.
  Local Open Scope Z_scope.
  Definition P := Ckks 45 [60; 46; 45].
  Definition b (v : nat) : Z := match ckks_scales true P 45 lev (fun _ => None) p v with Some s => s | None => 0 end.
  Definition r : result := match populate P false lev p with Some r => r | None => Result p lev (fun _ => None) (fun _ => None) end.
  (** rotation by one slot *)
  Definition ev (_ : opk) (l : list slots) : slots := fun k => hd (fun _ => 0%Q) l (S k).
  Definition x : slots := fun k => match k with O => 1 # 2 | _ => 3 # 1 end.
  Definition cl (C : nat -> slots) (i : inst) : slots :=
    match op i, args i with
    | Add, [a; b] => fun k => (C a k + C b k)%Q
    | Mul, [a; b] => fun k => (C a k * C b k)%Q
    | Other _, l => ev (op i) (map C l)
    | _, a :: _ => C a
    | _, _ => fun _ => 0%Q
    end.
  Definition C : nat -> slots := flow cl (fun v => match v with O => x | _ => fun _ => 5 # 4 end) (body (r_prog r)).
  Definition E (v : nat) : slots := if managed (r_prog r) v then scaled (scale_of r v) (C v) else C v.
End Poly.
Definition poly_p : prog := ltac:(let l := eval vm_compute in Poly.p in exact l).
Lemma poly_eq : Poly.p = poly_p.
Proof. vm_compute. reflexivity. Qed.
Definition poly_r : prog := ltac:(let l := eval vm_compute in (r_prog Poly.r) in exact l).
Lemma poly_req : r_prog Poly.r = poly_r.
Proof. vm_compute. reflexivity. Qed.
Ltac each p := change (body p) with ltac:(let l := eval vm_compute in (body p) in exact l); intros I.
Ltac cases I := repeat (destruct I as [<-|I]); [..|destruct I].
Lemma poly_wf : wf Poly.p.
Proof. unfold wf. rewrite poly_eq. cbn. repeat split; try easy. all: try (intros v H; cbn in *; tauto). all: try lia. all: intros; lia. Qed.
Example C71_nonvacuous :
  good_params Poly.P /\ wf Poly.p /\ estimate 45 45 (dropped Poly.P) Poly.lev Poly.p Poly.b /\ proper Poly.ev /\
  scheme_ops Poly.ev Poly.p /\ populate Poly.P false Poly.lev Poly.p = Some Poly.r /\
  execution (dropped Poly.P) (r_lev Poly.r) Poly.ev (r_prog Poly.r) Poly.C Poly.E (scale_of Poly.r) (r_delta Poly.r) /\
  r_delta Poly.r 18%nat = Some 45 /\ r_delta Poly.r 19%nat = Some 1.
Proof.
  split. { split; [reflexivity|]. intros x H. repeat (destruct H as [<-|H]); try easy. }
  split; [exact poly_wf|].
  split. { split.
    - rewrite poly_eq. intros i k. each poly_p. cases I; discriminate.
    - change (sargs Poly.p) with [0%nat]. intros v [<-|[]]. reflexivity.
    - rewrite poly_eq. intros i. each poly_p. cases I; try discriminate; intros _; vm_compute; reflexivity.
    - rewrite poly_eq. intros i. each poly_p. cases I; cbn [op args res]; intros N _; try (now contradict N); (split; [vm_compute; reflexivity|]).
      all: try (intros v H _; repeat (destruct H as [<-|H]); [..|destruct H]; vm_compute; reflexivity).
      all: try (eexists; split; [reflexivity|]; split; vm_compute; reflexivity).
      + exists 0%nat, 0%nat. split; [reflexivity|]. split; [vm_compute; reflexivity|]. split; [vm_compute; reflexivity|]. left. vm_compute. repeat split; discriminate.
      + exists 12%nat, 13%nat. split; [reflexivity|]. split; [vm_compute; reflexivity|]. split; [vm_compute; reflexivity|]. right. right.
        split; [vm_compute; reflexivity|]. split; [discriminate|]. split; [vm_compute; discriminate|]. split; [right; vm_compute; discriminate|vm_compute; reflexivity].
      + intros v [<-|[<-|[]]] H; vm_compute in H |- *; [reflexivity|discriminate].
      + exists 0%nat, 10%nat. split; [reflexivity|]. split; [vm_compute; reflexivity|]. split; [vm_compute; reflexivity|]. left. vm_compute. repeat split; discriminate.
      + split; [|split]; [exists 6%nat; repeat split; try (now left); vm_compute; reflexivity| |left; vm_compute; discriminate].
        intros v [<-|[<-|[]]] _; vm_compute; discriminate.
      + split; [|split]; [exists 5%nat; repeat split; try (now left); vm_compute; reflexivity| |left; vm_compute; discriminate].
        intros v [<-|[<-|[]]] _; vm_compute; discriminate. }
  split. { intros k l l' F. unfold Poly.ev. destruct F as [|a a' l l' H F]; intros n; cbn [hd]; [reflexivity|apply H]. }
  split. { rewrite poly_eq. intros i. each poly_p. cases I; cbn [op args]; try exact (fun _ => Logic.I).
    all: try (intros _ v [<-|[<-|[]]]; vm_compute; reflexivity).
    intros _. change (map (managed poly_p) [3%nat; 9%nat]) with [true; false].
    intros s [|c [|c' cs]] [|e [|e' es]] H k; try (cbn in H; tauto). destruct H as (H & _). exact (H (S k)). }
  split. { assert (H : match populate Poly.P false Poly.lev Poly.p with Some _ => true | None => false end = true) by (vm_compute; reflexivity).
    unfold Poly.r. destruct (populate _ _ _ _); [reflexivity|discriminate]. }
  split. { split.
    - rewrite poly_req. intros i. each poly_r. cases I; cbn [clear_op op args res]; intros k; destruct k as [|[|k]]; vm_compute; reflexivity.
    - rewrite poly_req. intros i. each poly_r. cases I; intros _; unfold exec_op; cbn [op args res];
        try lazymatch goal with |- match r_delta Poly.r ?v with _ => _ end => let d := eval vm_compute in (r_delta Poly.r v) in
          let H := fresh in assert (H : r_delta Poly.r v = d) by (vm_compute; reflexivity); rewrite H; clear H; cbn iota end;
        intros k; destruct k as [|[|k]]; vm_compute; reflexivity.
    - change (sargs (r_prog Poly.r)) with [0%nat]. intros v [<-|[]] k. destruct k; vm_compute; reflexivity.
    - intros v H. unfold Poly.E. rewrite H. intros k. reflexivity. }
  split; vm_compute; reflexivity.
Qed.

(** ** Unequal moduli: a ciphertext is to be lowered.  For x^2 * x no scales are found if the modulus dropped first is an odd
    number of bits longer than needed: x^2 is rounded up to 92 - 46 bits, x has 91 - 46 bits after the extra reduction and is
    to get 90 - 46.  The same moduli in another order are fine. *)
Module Steep.
  Local Open Scope nat_scope.
  Definition src := Prog [0] [] [Inst Mul [0; 0] 2; Inst Mul [2; 0] 3] [3].
  Definition p := insert_all true (BeforeMul false) 100 src.
  Definition lev (v : nat) : nat := match annotate_level 0 40 p v with Some l => l | None => 0 end.
  Local Open Scope Z_scope.
  Definition P := Ckks 45 [60; 45; 46].
  Definition P' := Ckks 45 [60; 46; 45].
End Steep.
Theorem C71_rounding_refuted : exists src P P',
  let p := insert_all true (BeforeMul false) 100 src in
  let lev v := match annotate_level 0 40 p v with Some l => l | None => 0%nat end in
  wf p /\ good_params P /\ good_params P' /\ ld P = ld P' /\ Permutation (lq P) (lq P') /\
  populate P false lev p = None /\ populate P' false lev p <> None.
Proof.
  exists Steep.src, Steep.P, Steep.P'. fold Steep.p. fold Steep.lev. cbv zeta.
  split. { unfold wf. change Steep.p with ltac:(let l := eval vm_compute in Steep.p in exact l). cbn. repeat split; try easy.
    all: try (intros v H; cbn in *; tauto). all: try lia. all: intros; lia. }
  split. { split; [reflexivity|]. intros x H. repeat (destruct H as [<-|H]); try easy. }
  split. { split; [reflexivity|]. intros x H. repeat (destruct H as [<-|H]); try easy. }
  split; [reflexivity|]. split; [constructor; constructor|]. split; [vm_compute; reflexivity|vm_compute; discriminate].
Qed.
Print Assumptions C71_rounding_refuted.

(** ** With a reduction before the first product plaintexts are encoded at twice the default scale: in c * (c * (c * x)) the
    scale grows by the default scale with every product, the result does not fit into the modulus that is left. *)
Module Grow.
  Local Open Scope nat_scope.
  Definition src := Prog [0] [1] [Inst Mul [0; 1] 2; Inst Mul [2; 1] 3; Inst Mul [3; 1] 4] [4].
  Definition p := insert_all true (BeforeMul true) 100 src.
  Definition lev (v : nat) : nat := match annotate_level 0 40 p v with Some l => l | None => 0 end.
  Local Open Scope Z_scope.
  Definition P := Ckks 45 [60; 45; 45; 45; 45].
  Definition b (v : nat) : Z := match ckks_scales true P 90 lev (fun _ => None) p v with Some s => s | None => 0 end.
  Definition r : result := match populate P true lev p with Some r => r | None => Result p lev (fun _ => None) (fun _ => None) end.
End Grow.
Definition grow_p : prog := ltac:(let l := eval vm_compute in Grow.p in exact l).
Lemma grow_eq : Grow.p = grow_p.
Proof. vm_compute. reflexivity. Qed.
Lemma grow_wf : wf Grow.p.
Proof. unfold wf. rewrite grow_eq. cbn. repeat split; try easy. all: try (intros v H; cbn in *; tauto). all: try lia. all: intros; lia. Qed.
(** the bits of the moduli that are left at a level *)
Definition bits (P : ckks) (l : nat) : Z := fold_right Z.add 0 (firstn (S l) (lq P)).
Theorem C71_growth_refuted : exists src P b r out,
  let p := insert_all true (BeforeMul true) 100 src in
  let lev v := match annotate_level 0 40 p v with Some l => l | None => 0%nat end in
  wf p /\ good_params P /\ estimate (ld P) (first_scale P true) (dropped P) lev p b /\
  (forall v, In v (values p) -> (lev v < length (lq P))%nat) /\
  populate P true lev p = Some r /\ outs (r_prog r) = [out] /\ bits P (r_lev r out) < scale_of r out.
Proof.
  exists Grow.src, Grow.P, Grow.b, Grow.r, 11%nat. fold Grow.p. fold Grow.lev. cbv zeta.
  split; [exact grow_wf|].
  split. { split; [reflexivity|]. intros x H. repeat (destruct H as [<-|H]); try easy. }
  split. { split.
    - rewrite grow_eq. cbn [body grow_p]. intros i k I. cases I; discriminate.
    - rewrite grow_eq. cbn [sargs grow_p]. intros v [<-|[]]. vm_compute. reflexivity.
    - rewrite grow_eq. cbn [body grow_p]. intros i I. cases I; try discriminate; intros _; vm_compute; reflexivity.
    - rewrite grow_eq. cbn [body grow_p]. intros i I. cases I; cbn [op args res]; intros N _; try (now contradict N); (split; [vm_compute; reflexivity|]).
      all: try (eexists; split; [reflexivity|]; split; vm_compute; reflexivity).
      all: eexists _, _; split; [reflexivity|]; split; [vm_compute; reflexivity|]; split; [vm_compute; reflexivity|]; left; vm_compute; repeat split; discriminate. }
  split. { rewrite grow_eq. unfold values. cbn [grow_p sargs pargs body map res app]. intros v I. cases I; vm_compute; lia. }
  split. { assert (H : match populate Grow.P true Grow.lev Grow.p with Some _ => true | None => false end = true) by (vm_compute; reflexivity).
    unfold Grow.r. destruct (populate _ _ _ _); [reflexivity|discriminate]. }
  split; vm_compute; reflexivity.
Qed.
Print Assumptions C71_growth_refuted.
