(** Proofs about the placement of relinearizations: basics, and a feasible solution gives a legal program. *)
From Coq Require Import List Bool Arith Lia QArith Lqa.
From Verif Require Import Relin_Model Relin_Spec.
Import ListNotations.
Local Open Scope nat_scope.

(** * Environments *)
Lemma lookups_cons {A} (e : nat -> option A) v vs zs : lookups e (v :: vs) = Some zs ->
  exists x xs, e v = Some x /\ lookups e vs = Some xs /\ zs = x :: xs.
Proof.
  cbn. destruct (e v) as [x|]; [|discriminate]. destruct (lookups e vs) as [xs|]; [|discriminate].
  cbn. intros [= <-]. eauto.
Qed.
Lemma lookups_F2 {A} (e : nat -> option A) vs : forall xs, lookups e vs = Some xs <-> Forall2 (fun v x => e v = Some x) vs xs.
Proof.
  induction vs as [|v vs IH]; intros xs; split; intros H.
  - cbn in H. injection H as <-. constructor.
  - inversion H; subst. reflexivity.
  - apply lookups_cons in H. destruct H as (x & ys & E1 & E2 & ->). constructor; auto. apply IH; auto.
  - inversion H; subst. cbn. rewrite H2. apply IH in H4. rewrite H4. reflexivity.
Qed.
Lemma lookups_ext {A} (e e' : nat -> option A) vs : (forall v, In v vs -> e v = e' v) -> lookups e vs = lookups e' vs.
Proof.
  induction vs as [|v vs IH]; intros H; cbn; auto. rewrite (H v) by (left; auto). rewrite IH; auto. intros; apply H; right; auto.
Qed.
Lemma assign_spec {A} vs : forall (xs : list A) e e', NoDup vs -> assign vs xs e = Some e' ->
  Forall2 (fun v x => e' v = Some x) vs xs /\ (forall v, ~ In v vs -> e' v = e v).
Proof.
  induction vs as [|v vs IH]; intros [|x xs] e e' N H; try discriminate; cbn in H.
  - injection H as <-. auto.
  - inversion N; subst. destruct (IH xs _ _ H3 H) as [A1 A2]. split.
    + constructor; auto. rewrite A2 by auto. rewrite Nat.eqb_refl. auto.
    + intros u Hu. rewrite A2 by (intros C; apply Hu; right; auto). destruct (Nat.eqb_spec u v); auto. subst. exfalso. apply Hu. left; auto.
Qed.
Lemma assign_some {A} vs : forall (xs : list A) e, length vs = length xs -> exists e', assign vs xs e = Some e'.
Proof. induction vs as [|v vs IH]; intros [|x xs] e H; try discriminate; cbn; eauto. Qed.
Lemma assign_length {A} vs : forall (xs : list A) e e', assign vs xs e = Some e' -> length vs = length xs.
Proof. induction vs as [|v vs IH]; intros [|x xs] e e' H; try discriminate; cbn in *; auto. f_equal. eauto. Qed.
Lemma F2_len {A B} (P : A -> B -> Prop) l l' : Forall2 P l l' -> length l = length l'.
Proof. induction 1; cbn; auto. Qed.
Lemma F2_impl {A B} (P Q : A -> B -> Prop) l l' : (forall a b, In a l -> P a b -> Q a b) -> Forall2 P l l' -> Forall2 Q l l'.
Proof.
  intros H F. induction F; constructor; [apply H; cbn; auto|]. apply IHF. intros; apply H; cbn; auto.
Qed.
Lemma F2_and {A B} (P Q : A -> B -> Prop) l l' : Forall2 P l l' -> Forall2 Q l l' -> Forall2 (fun a b => P a b /\ Q a b) l l'.
Proof. intros F. induction F; intros G; inversion G; subst; constructor; auto. Qed.
Lemma F2_in_l {A B} (P : A -> B -> Prop) l l' a : Forall2 P l l' -> In a l -> exists b, In b l' /\ P a b.
Proof.
  intros F. induction F; cbn; [tauto|]. intros [<-|H']; [exists y; auto|]. destruct (IHF H') as (b & ? & ?). eauto.
Qed.
Lemma F2_in_r {A B} (P : A -> B -> Prop) l l' b : Forall2 P l l' -> In b l' -> exists a, In a l /\ P a b.
Proof.
  intros F. induction F; cbn; [tauto|]. intros [<-|H']; [exists x; auto|]. destruct (IHF H') as (a & ? & ?). eauto.
Qed.

Lemma F2_map_r {A B C} (P : A -> C -> Prop) (f : B -> C) l : forall l', Forall2 P l (map f l') <-> Forall2 (fun a b => P a (f b)) l l'.
Proof. induction l as [|a l IH]; intros [|b l']; split; intros H; inversion H; subst; constructor; auto; apply IH; auto. Qed.

Lemma iter_S {A} k (f : A -> A) a : Nat.iter (S k) f a = f (Nat.iter k f a).
Proof. reflexivity. Qed.

Section Sound.
  Variable D : Type.
  Variable ev : nat -> list D -> list D.
  Variable sec : nat -> bool.
  Variable mixed : bool.
  Variable dim : nat -> option nat.
  Variable x : solution.
  Variable n : nat.
  Variable sec' : nat -> bool.        (* the secretness in the new program *)
  Hypothesis sec_low : forall v, v < n -> sec' v = sec v.
  Hypothesis sec_high : forall v, v < n -> sec' (n + v) = sec v.
  Notation exec := (exec D ev sec' mixed true).
  Notation plain := (plain D ev).
  Notation val := (val D).
  Definition q (d : nat) : Q := inject_Z (Z.of_nat d).

  Lemma q_le a b : (q a <= q b)%Q <-> a <= b.
  Proof. unfold q. rewrite <- Zle_Qle. lia. Qed.
  Lemma q_eq a b : (q a == q b)%Q <-> a = b.
  Proof. unfold q. rewrite inject_Z_injective. lia. Qed.
  Lemma q_1 : q 1 = 1%Q. Proof. reflexivity. Qed.
  Lemma q_2 : q 2 = 2%Q. Proof. reflexivity. Qed.

  (** a value with degree bound [b] *)
  Definition okq (v : nat) (b : Q) (y : val) : Prop :=
    match snd y with
    | Some d => sec v = true /\ 1 <= d <= 2 /\ covers mixed (q d) b
    | None => sec v = false
    end.
  Definition okv (v : nat) (y : val) : Prop := okq v (deg x v) y.
  Definition rel (av : list nat) (e : nat -> option D) (ee : nat -> option val) : Prop :=
    forall v, In v av -> v < n /\ exists y, e v = Some (fst y) /\ ee v = Some y /\ okv v y.

  Lemma covers_trans a b c : covers mixed a b -> covers mixed b c -> covers mixed a c.
  Proof. unfold covers. destruct mixed; intros; lra. Qed.
  Lemma covers_le a b : covers mixed a b -> (a <= b)%Q.
  Proof. unfold covers. destruct mixed; intros; lra. Qed.
  Lemma covers_one d b : 1 <= d -> covers mixed (q d) b -> (b == 1)%Q -> d = 1.
  Proof.
    intros H C E. apply covers_le in C. assert (L : (q d <= q 1)%Q) by (rewrite q_1; lra). apply q_le in L. lia.
  Qed.

  Lemma rel_lookups av e ee vs : rel av e ee -> incl vs av ->
    exists ys, lookups e vs = Some (map fst ys) /\ lookups ee vs = Some ys /\ Forall2 okv vs ys.
  Proof.
    intros R. induction vs as [|v vs IH]; intros I; [exists []; cbn; auto|].
    destruct IH as (ys & A & B & C); [intros u Hu; apply I; right; auto|].
    destruct (R v (I v (or_introl eq_refl))) as (_ & y & E1 & E2 & O). exists (y :: ys). cbn.
    rewrite E1, E2, A, B. cbn. auto.
  Qed.
  Lemma rel_assign av e ee vs ys e' ee' : rel av e ee -> NoDup vs -> (forall v, In v vs -> ~ In v av) ->
    (forall v, In v vs -> v < n) ->
    assign vs (map fst ys) e = Some e' -> assign vs ys ee = Some ee' -> Forall2 okv vs ys -> rel (vs ++ av) e' ee'.
  Proof.
    intros R N F B A1 A2 O v Hv. destruct (assign_spec _ _ _ _ N A1) as [S1 S2]. destruct (assign_spec _ _ _ _ N A2) as [T1 T2].
    destruct (in_dec Nat.eq_dec v vs) as [I|NI].
    - split; auto. clear - S1 T1 O I. revert S1 T1. induction O; [destruct I|]. intros S1 T1. cbn in S1.
      inversion S1; subst. inversion T1; subst. destruct I as [<-|I]; eauto.
    - apply in_app_or in Hv. destruct Hv as [Hv|Hv]; [tauto|]. destruct (R v Hv) as (L & y & E1 & E2 & O').
      split; auto. exists y. rewrite S2, T2 by auto. auto.
  Qed.

  (** * Degrees of operands *)
  Lemma degrees_in vs ys d : Forall2 okv vs ys -> In d (degrees D ys) ->
    exists v, In v vs /\ sec v = true /\ 1 <= d <= 2 /\ covers mixed (q d) (deg x v).
  Proof.
    intros F I. unfold degrees in I. apply in_flat_map in I. destruct I as (y & Hy & I).
    destruct (F2_in_r _ _ _ _ F Hy) as (v & Hv & O). unfold okv, okq in O. destruct (snd y) as [d'|]; [|destruct I].
    destruct I as [<-|[]]. exists v. tauto.
  Qed.
  Lemma degrees_nil vs ys : Forall2 okv vs ys -> (degrees D ys = [] <-> existsb sec vs = false).
  Proof.
    induction 1 as [|v y vs ys O F IH]; cbn; [tauto|]. unfold okv, okq in O. fold (degrees D ys).
    destruct (snd y) as [d|]; [destruct O as (-> & _)|rewrite O; auto]. cbn. split; discriminate.
  Qed.
  Lemma list_max_in ds : ds <> [] -> In (list_max ds) ds.
  Proof.
    induction ds as [|d ds IH]; [congruence|]. intros _. cbn. destruct ds as [|d' ds].
    - left. cbn. lia.
    - assert (I : In (list_max (d' :: ds)) (d' :: ds)) by (apply IH; congruence).
      destruct (Nat.max_spec d (list_max (d' :: ds))) as [[? E]|[? E]]; unfold list_max in *; cbn in *; rewrite E; auto.
  Qed.
  Lemma uses_plain_spec args ys : Forall2 okv (map fst args) ys -> uses_plaintext D (map snd args) ys = true ->
    existsb (fun p => snd p && negb (sec (fst p))) args = true.
  Proof.
    revert ys. induction args as [|[a fl] args IH]; intros ys F H; inversion F; subst; [discriminate|].
    cbn in *. apply orb_true_iff in H. apply orb_true_iff. destruct H as [H|H]; [left|right; eauto].
    apply andb_prop in H. destruct H as [-> H]. unfold okv, okq in H2. destruct (snd y); [discriminate|]. rewrite H2. auto.
  Qed.
  Lemma existsb_fst args : existsb (fun p : operand => sec (fst p)) args = existsb sec (map fst args).
  Proof. induction args as [|a args IH]; cbn; auto. rewrite IH. auto. Qed.

  Lemma op_legal k args ys : k <> KRelin -> Forall2 okv (map fst args) ys ->
    equal_operands sec mixed x (map fst args) -> (require_linear sec k args = true -> linear sec x (map fst args)) ->
    legal D mixed k (map snd args) ys = true.
  Proof.
    intros NK F EQ LIN. unfold legal.
    assert (ONE : linear sec x (map fst args) -> all_one (degrees D ys) = true).
    { intros L. apply forallb_forall. intros d Hd. destruct (degrees_in _ _ _ F Hd) as (v & Hv & Sv & Bd & C).
      unfold linear in L. rewrite Forall_forall in L. rewrite (covers_one d (deg x v)); auto. lia. }
    assert (EQB : mixed || all_equal (degrees D ys) = true).
    { destruct mixed eqn:M; auto. cbn. unfold all_equal. destruct (degrees D ys) as [|d0 ds] eqn:E; auto.
      assert (ALL : forall d, In d (d0 :: ds) -> exists v, In v (filter sec (map fst args)) /\ (q d == deg x v)%Q).
      { intros d Hd. rewrite <- E in Hd. destruct (degrees_in _ _ _ F Hd) as (v & Hv & Sv & _ & C).
        exists v. rewrite filter_In. split; auto. unfold covers in C. rewrite M in C. auto. }
      unfold equal_operands in EQ. destruct (filter sec (map fst args)) as [|a l].
      { destruct (ALL d0 (or_introl eq_refl)) as (v & [] & _). }
      specialize (EQ eq_refl). rewrite Forall_forall in EQ.
      assert (AA : forall d, In d (d0 :: ds) -> (q d == deg x a)%Q).
      { intros d Hd. destruct (ALL d Hd) as (v & [<-|Hv] & Ev); auto. rewrite Ev. apply EQ; auto. }
      apply forallb_forall. intros d Hd. apply Nat.eqb_eq. apply q_eq.
      rewrite (AA d0) by (left; auto). rewrite (AA d) by (right; auto). reflexivity. }
    rewrite EQB, andb_true_r.
    assert (PT : uses_plaintext D (map snd args) ys = true -> degrees D ys <> [] ->
                 existsb (fun p => sec (fst p)) args && existsb (fun p => snd p && negb (sec (fst p))) args = true).
    { intros U NE. rewrite (uses_plain_spec args ys F U), andb_true_r, existsb_fst.
      destruct (existsb sec (map fst args)) eqn:E; auto. exfalso. apply NE. apply (degrees_nil _ _ F). auto. }
    assert (GEN : (existsb (fun p => sec (fst p)) args && existsb (fun p => snd p && negb (sec (fst p))) args = true -> linear sec x (map fst args)) ->
              negb (uses_plaintext D (map snd args) ys) || all_one (degrees D ys) = true).
    { intros L. destruct (uses_plaintext D (map snd args) ys) eqn:U; auto. cbn.
      destruct (degrees D ys) as [|d ds] eqn:E; auto. rewrite <- E in *. apply ONE, L, PT; auto. rewrite E. discriminate. }
    destruct k; try congruence; cbn in LIN; auto.
  Qed.

  Definition bounds (vs : list nat) : Prop := Forall (fun r => sec r = true -> in_bounds (deg x r) /\ in_bounds (bef x r)) vs.

  Lemma q_le2 d b : covers mixed (q d) b -> in_bounds b -> d <= 2.
  Proof. intros C [_ B]. apply covers_le in C. apply q_le. rewrite q_2. lra. Qed.

  (** the degree of the result before the decision *)
  Lemma op_degree k args res ys d : k <> KRelin -> Forall2 okv (map fst args) ys ->
    match k with KMul => length args = 2 /\ length res = 1 | _ => True end ->
    (forall r, In r res -> sec r = existsb sec (map fst args)) ->
    vars_ok sec x res -> equal_operands sec mixed x (map fst args) -> before_ok sec mixed x k args res ->
    result_degree k (degrees D ys) = Some d ->
    1 <= d <= 2 /\ Forall (fun r => sec r = true /\ covers mixed (q d) (bef x r)) res.
  Proof.
    intros NK F SH SR VO EQ BO RD.
    assert (NE : degrees D ys <> []) by (intros E; rewrite E in RD; discriminate).
    assert (SA : existsb sec (map fst args) = true).
    { destruct (existsb sec (map fst args)) eqn:E; auto. exfalso. apply NE. apply (degrees_nil _ _ F). auto. }
    assert (SRT : forall r, In r res -> sec r = true) by (intros r Hr; rewrite SR; auto).
    assert (ASR : res <> [] -> all_secret sec res = true).
    { intros N. unfold all_secret. destruct res; [congruence|]. apply forallb_forall. auto. }
    destruct (Nat.eq_dec (match k with KMul => 1 | _ => 0 end) 1) as [KM|KM].
    - destruct k; try discriminate. destruct SH as [L1 L2].
      destruct args as [|[a fa] [|[b fb] [|]]]; try discriminate. destruct res as [|o [|]]; try discriminate.
      cbn in BO. specialize (BO (SRT o (or_introl eq_refl))). cbn in F. inversion F; subst. inversion H3; subst. inversion H5; subst.
      unfold okv, okq in H1, H2.
      unfold vars_ok in VO. inversion VO; subst. specialize (H4 (SRT o (or_introl eq_refl))). destruct H4 as [_ BB].
      assert (C : 1 <= d /\ covers mixed (q d) (bef x o)).
      { unfold degrees in RD. cbn in RD. destruct (snd y) as [d1|], (snd y0) as [d2|]; cbn in RD.
        - destruct H1 as (S1 & B1 & C1), H2 as (S2 & B2 & C2). rewrite S1, S2 in BO. cbn in BO. injection RD as <-.
          split; [lia|]. assert (Q1 : (q (d1 + (d2 + 0)) == q d1 + q d2)%Q).
          { unfold q. rewrite Nat.add_0_r, Nat2Z.inj_add, inject_Z_plus. reflexivity. }
          unfold covers in *. destruct mixed; rewrite Q1, BO; lra.
        - destruct H1 as (S1 & B1 & C1). rewrite S1, H2 in BO. cbn in BO; rewrite ?S1 in BO; cbn in BO. injection RD as <-.
          split; [lia|]. rewrite Nat.add_0_r. unfold covers in *. destruct mixed; rewrite BO; auto.
        - destruct H2 as (S1 & B1 & C1). rewrite S1, H1 in BO. cbn in BO; rewrite ?H1, ?S1 in BO; cbn in BO. injection RD as <-.
          split; [lia|]. rewrite Nat.add_0_r. unfold covers in *. destruct mixed; rewrite BO; auto.
        - discriminate. }
      destruct C as [C1 C2]. split; [split; auto; apply (q_le2 _ _ C2 BB)|]. constructor; [|constructor]. split; auto. apply SRT; left; auto.
    - assert (RD' : d = list_max (degrees D ys)).
      { unfold result_degree in RD. destruct (degrees D ys); [congruence|]. destruct k; congruence. }
      assert (I : In d (degrees D ys)) by (rewrite RD'; apply list_max_in; auto).
      destruct (degrees_in _ _ _ F I) as (v & Hv & Sv & Bd & C). split; auto.
      assert (BO' : all_secret sec res = true ->
        if mixed then Forall (fun a => Forall (fun r => (deg x a <= bef x r)%Q) res) (filter sec (map fst args))
        else match filter sec (map fst args) with a :: _ => Forall (fun r => (bef x r == deg x a)%Q) res | [] => False end).
      { destruct k; try congruence; auto. }
      destruct res as [|r0 res]; [constructor|]. specialize (BO' (ASR ltac:(discriminate))).
      apply Forall_forall. intros r Hr. split; auto. unfold covers in *. destruct mixed eqn:M.
      + rewrite Forall_forall in BO'. specialize (BO' v). rewrite filter_In in BO'. specialize (BO' (conj Hv Sv)).
        rewrite Forall_forall in BO'. specialize (BO' r Hr). lra.
      + unfold equal_operands in EQ. assert (Hf : In v (filter sec (map fst args))) by (apply filter_In; auto).
        destruct (filter sec (map fst args)) as [|a l]; [destruct Hf|]. specialize (EQ eq_refl).
        rewrite Forall_forall in EQ, BO'. specialize (BO' r Hr). rewrite BO'. destruct Hf as [<-|Hf]; [lra|].
        rewrite C. apply EQ; auto.
  Qed.

  (** * The inserted relinearizations *)
  Lemma exec_relins c : forall res (ys : list val) (ee : nat -> option val),
    Forall2 (fun r y => ee (n + r) = Some y) res ys -> (forall r, In r res -> r < n) -> NoDup res ->
    exists ee', exec (relins n res c) ee = exec c ee' /\
      Forall2 (fun r y => ee' r = Some (fst y, result_degree KRelin (degrees D [y]))) res ys /\
      (forall v, ~ In v res -> ee' v = ee v).
  Proof.
    induction res as [|r res IH]; intros ys ee F B N; inversion F; subst.
    - exists ee. cbn. auto.
    - inversion N; subst. cbn [relins Relin_Spec.exec map fst snd]. cbn [lookups]. rewrite H1. cbn [bind].
      match goal with |- context [allowed D mixed true KRelin ?a ?b] => assert (AL : allowed D mixed true KRelin a b = true) end.
      { unfold allowed, legal. cbn. unfold degrees. cbn. destruct (snd y); cbn; rewrite ?orb_true_r; auto. }
      rewrite AL. cbn [map assign bind fst].
      destruct (IH l' (fun u => if u =? r then Some (fst y, result_degree KRelin (degrees D [y])) else ee u)) as (ee' & E & G & K); auto.
      + eapply F2_impl; [|apply H3]. intros a b Ha Hb. cbn. destruct (Nat.eqb_spec (n + a) r); auto.
        assert (r < n) by (apply B; left; auto). lia.
      + intros r' Hr. apply B. right; auto.
      + exists ee'. split; auto. split.
        * constructor; auto. rewrite K by auto. rewrite Nat.eqb_refl. auto.
        * intros v Hv. rewrite K by (intros C; apply Hv; right; auto). destruct (Nat.eqb_spec v r); auto. subst. exfalso. apply Hv. left; auto.
  Qed.

  Fixpoint norelin (c : code) : Prop :=
    match c with End => True | Do k _ _ _ c => k <> KRelin /\ norelin c | For _ _ _ body _ _ c => norelin body /\ norelin c end.

  (** what the decision does *)
  Lemma decided res r d : all_secret sec res = true -> decision_ok sec x res -> In r res -> covers mixed (q d) (bef x r) ->
    if ins x (hd 0 res) then (deg x r == 1)%Q else covers mixed (q d) (deg x r).
  Proof.
    intros A DO Hr C. specialize (DO A). cbn zeta in DO. rewrite Forall_forall in DO. specialize (DO r Hr).
    unfold aux, b2q, covers in *. destruct (ins x (hd 0 res)), mixed; lra.
  Qed.

  (** results of an operation are defined, possibly relinearized *)
  Lemma finish res c (ys : list val) av e e1 ee :
    rel av e ee -> NoDup res -> (forall r, In r res -> ~ In r av) -> (forall r, In r res -> r < n) ->
    assign res (map fst ys) e = Some e1 ->
    all_secret sec res && ins x (hd 0 res) = true -> decision_ok sec x res -> Forall2 (fun r y => okq r (bef x r) y) res ys ->
    exists ee1 ee2, assign (map (Nat.add n) res) ys ee = Some ee1 /\ exec (relins n res c) ee1 = exec c ee2 /\ rel (res ++ av) e1 ee2.
  Proof.
    intros R N FR B A1 AI DO O. apply andb_prop in AI. destruct AI as [AS IN].
    destruct (assign_some (map (Nat.add n) res) ys ee) as (ee1 & A2).
    { rewrite map_length. apply (F2_len _ _ _ O). }
    exists ee1.
    assert (N' : NoDup (map (Nat.add n) res)).
    { clear - N. induction N as [|z l NI N' IHN]; cbn; constructor; auto. rewrite in_map_iff. intros (u & E & I). assert (u = z) by lia. subst. auto. }
    destruct (assign_spec _ _ _ _ N' A2) as [S1 S2].
    assert (S1' : Forall2 (fun r y => ee1 (n + r) = Some y) res ys).
    { clear - S1. remember (map (Nat.add n) res) as l eqn:E. revert res E. induction S1; intros [|r res] E; try discriminate; constructor.
      - injection E as -> _. auto.
      - injection E as _ ->. auto. }
    destruct (exec_relins c res ys ee1 S1' B N) as (ee2 & E & G & K). exists ee2. split; auto. split; auto.
    destruct (assign_spec _ _ _ _ N A1) as [T1 T2].
    intros v Hv. destruct (in_dec Nat.eq_dec v res) as [I|NI].
    - split; auto. pose proof (F2_and _ _ _ _ O G) as OG. clear - OG T1 I AS IN DO.
      assert (Z : forall r y, In r res -> okq r (bef x r) y -> okv r (fst y, result_degree KRelin (degrees D [y]))).
      { intros r y Hr O. unfold okv, okq in *. unfold degrees. cbn. destruct (snd y) as [d|]; cbn; auto.
        destruct O as (S & Bd & C). split; auto. split; [lia|].
        pose proof (decided res r d AS DO Hr C) as DD. rewrite IN in DD. unfold covers. rewrite q_1. destruct mixed; lra. }
      apply F2_map_r in T1. pose proof (F2_and _ _ _ _ OG T1) as OGT. destruct (F2_in_l _ _ _ _ OGT I) as (y & _ & (O & G) & T).
      exists (fst y, result_degree KRelin (degrees D [y])). cbn [fst]. repeat split; auto.
    - apply in_app_or in Hv. destruct Hv as [Hv|Hv]; [tauto|]. destruct (R v Hv) as (L & y & E1 & E2 & O').
      split; auto. exists y. rewrite T2, K, S2; auto. rewrite in_map_iff. intros (u & E3 & _). lia.
  Qed.
  (** ... or not *)
  Lemma finish_plain res (ys : list val) av e e1 ee :
    rel av e ee -> NoDup res -> (forall r, In r res -> ~ In r av) -> (forall r, In r res -> r < n) ->
    assign res (map fst ys) e = Some e1 -> Forall2 okv res ys ->
    exists ee2, assign res ys ee = Some ee2 /\ rel (res ++ av) e1 ee2.
  Proof.
    intros R N FR B A1 O. destruct (assign_some res ys ee) as (ee2 & A2); [apply (F2_len _ _ _ O)|].
    exists ee2. split; auto. eapply rel_assign; eauto.
  Qed.
  Lemma undecided res r d : all_secret sec res = true -> decision_ok sec x res -> In r res ->
    all_secret sec res && ins x (hd 0 res) = false -> covers mixed (q d) (bef x r) -> covers mixed (q d) (deg x r).
  Proof.
    intros A DO Hr AI C. rewrite A in AI. cbn in AI. pose proof (decided res r d A DO Hr C) as H. rewrite AI in H. auto.
  Qed.

  (** * Loops *)
  Lemma flow a b bq (w : val) : okv a w -> (sec a = true -> sec b = true) ->
    (sec b = true -> covers mixed (flow_deg sec x a) bq) -> okq b bq (encrypt D (sec b) w) /\ fst (encrypt D (sec b) w) = fst w.
  Proof.
    intros O S C. unfold okv, okq, encrypt, flow_deg in *. destruct (snd w) as [d|] eqn:E.
    - destruct O as (Sa & Bd & Ca). rewrite Sa in *. specialize (S eq_refl). rewrite S in *. rewrite E. repeat split; auto; try lia.
      eapply covers_trans; eauto.
    - rewrite O in *. destruct (sec b) eqn:Sb; cbn; [|rewrite E; auto]. rewrite q_1. repeat split; auto; lia.
  Qed.
  Lemma flows (g : nat -> Q) names : forall bs (ws : list val), Forall2 okv names ws -> length bs = length names ->
    (forall a b, In (a, b) (combine names bs) -> (sec a = true -> sec b = true) /\ (sec b = true -> covers mixed (flow_deg sec x a) (g b))) ->
    Forall2 (fun b w => okq b (g b) w) bs (encrypts D sec bs ws) /\ map fst (encrypts D sec bs ws) = map fst ws.
  Proof.
    induction names as [|a names IH]; intros bs ws F L H; inversion F; subst; destruct bs as [|b bs]; try discriminate; cbn; auto.
    destruct (IH bs l') as [I1 I2]; auto. { intros a' b' Hab. apply H. right; auto. }
    destruct (H a b (or_introl eq_refl)) as [HX1 HX2]. destruct (flow a b (g b) y) as [O1 O2]; auto.
    split; [constructor; auto|]. cbn. unfold encrypts in I2. rewrite O2, I2. auto.
  Qed.

  Lemma encrypts_low bs : forall ws : list val, (forall b, In b bs -> b < n) -> encrypts D sec' bs ws = encrypts D sec bs ws.
  Proof.
    unfold encrypts. induction bs as [|b bs IH]; intros [|w ws] B; cbn; auto. rewrite sec_low by (apply B; left; auto).
    rewrite IH; auto. intros; apply B; right; auto.
  Qed.
  Lemma encrypts_high bs : forall ws : list val, (forall b, In b bs -> b < n) ->
    encrypts D sec' (map (Nat.add n) bs) ws = encrypts D sec bs ws.
  Proof.
    unfold encrypts. induction bs as [|b bs IH]; intros [|w ws] B; cbn; auto. rewrite sec_high by (apply B; left; auto).
    rewrite IH; auto. intros; apply B; right; auto.
  Qed.

  Lemma exec_insert c : forall av e ee e',
    wf av c -> secretness sec c -> norelin c -> code_ok sec mixed dim x c -> loops_ok sec mixed x c -> top c < n ->
    rel av e ee -> plain c e = Some e' ->
    exists ee', exec (insert sec (ins x) n c) ee = Some ee' /\ rel (defs c ++ av) e' ee'.
  Proof.
    induction c as [|k f args res c IHc|t inits bargs body IHb ys res c IHc]; intros av e ee e' W SC NR CO LO TN R P.
    - cbn in P. injection P as <-. exists ee. cbn. auto.
    - cbn in W, SC, NR, CO, LO, TN, P. destruct W as (W1 & W2 & W3 & W4 & W5). destruct SC as [SR SC]. destruct NR as [NK NR].
      destruct CO as [(VO & EQ & LI & BO & DO) CO].
      destruct (rel_lookups _ _ _ _ R W1) as (vs & L1 & L2 & F). rewrite L1 in P. cbn [bind] in P.
      replace (match k with KRelin => map fst vs | _ => ev f (map fst vs) end) with (ev f (map fst vs)) in P by (destruct k; congruence).
      destruct (assign res (ev f (map fst vs)) e) as [e1|] eqn:A1; cbn [bind] in P; [|discriminate].
      pose proof (op_legal k args vs NK F EQ LI) as LG.
      set (outv := map (fun z => (z, result_degree k (degrees D vs))) (ev f (map fst vs))) in *.
      assert (MF : map fst outv = ev f (map fst vs)) by (unfold outv; rewrite map_map; cbn; apply map_id).
      assert (SR' : forall r, In r res -> sec r = existsb sec (map fst args)) by (intros r Hr; rewrite (SR r Hr); apply existsb_fst).
      assert (RL : length res = length outv) by (rewrite (assign_length _ _ _ _ A1), <- MF, map_length; auto).
      (* degrees of the results *)
      assert (DEG : match result_degree k (degrees D vs) with
                    | Some d => 1 <= d <= 2 /\ Forall (fun r => sec r = true /\ covers mixed (q d) (bef x r)) res
                    | None => Forall (fun r => sec r = false) res
                    end).
      { destruct (result_degree k (degrees D vs)) as [d|] eqn:RD.
        - apply (op_degree k args res vs d); auto. destruct k; try exact I; try congruence; auto.
        - assert (degrees D vs = []) as E by (destruct (degrees D vs); auto; discriminate).
          apply (degrees_nil _ _ F) in E. apply Forall_forall. intros r Hr. rewrite (SR' r Hr). auto. }
      assert (OB : forall (g : nat -> Q), (forall r d, In r res -> result_degree k (degrees D vs) = Some d -> covers mixed (q d) (bef x r) -> covers mixed (q d) (g r)) ->
                Forall2 (fun r y => okq r (g r) y) res outv).
      { intros g Hg. assert (Z : forall r, In r res -> forall z, okq r (g r) (z, result_degree k (degrees D vs))).
        { intros r Hr z. unfold okq. cbn [snd]. destruct (result_degree k (degrees D vs)) as [d|].
          - destruct DEG as [D1 D2]. rewrite Forall_forall in D2. destruct (D2 r Hr). repeat split; auto; try lia.
          - rewrite Forall_forall in DEG. auto. }
        clear - Z RL. unfold outv in *. clear outv. generalize dependent (ev f (map fst vs)). intros l RL. rewrite map_length in RL.
        revert l RL Z. induction res as [|r res IH]; intros [|z l] RL Z; try discriminate; constructor.
        - apply Z. left; auto.
        - apply IH; auto. intros r' Hr'. apply Z. right; auto. }
      assert (BN : forall r, In r res -> r < n).
      { intros r Hr. assert (r <= list_max (map fst args ++ res)); [|lia].
        pose proof (proj1 (list_max_le (map fst args ++ res) _) (le_n _)) as LM. rewrite Forall_forall in LM. apply LM. apply in_or_app; auto. }
      assert (AL : allowed D mixed true k (map snd args) vs = true).
      { unfold allowed. rewrite LG. cbn. destruct (result_degree k (degrees D vs)) as [d|]; auto. destruct DEG as [[D1 D2] _]. apply Nat.leb_le. auto. }
      rewrite <- MF in A1.
      assert (BT : top c < n) by lia.
      destruct (all_secret sec res && ins x (hd 0 res)) eqn:AI.
      + destruct (finish res (insert sec (ins x) n c) outv av e e1 ee R W2 W3 BN A1 AI DO) as (ee1 & ee2 & E2a & E2 & R2).
        { apply OB. auto. }
        destruct (IHc _ _ _ _ W5 SC NR CO LO BT R2 P) as (ee' & E3 & R3). exists ee'. split.
        * cbn [insert]. rewrite AI. cbn [Relin_Spec.exec]. rewrite L2. cbn [bind]. rewrite AL.
          replace (match k with KRelin => map fst vs | _ => ev f (map fst vs) end) with (ev f (map fst vs)) by (destruct k; congruence).
          match goal with |- bind ?a _ = _ => replace a with (Some ee1) by (symmetry; exact E2a) end. cbn [bind]. rewrite E2. auto.
        * cbn [defs]. rewrite <- app_assoc. auto.
      + destruct (finish_plain res outv av e e1 ee R W2 W3 BN A1) as (ee2 & E2 & R2).
        { apply OB. intros r d Hr RD C. rewrite RD in DEG. destruct DEG as [_ D2]. rewrite Forall_forall in D2.
          apply (undecided res); auto. unfold all_secret. destruct res; [destruct Hr|]. apply forallb_forall. intros r' Hr'. apply D2; auto. }
        destruct (IHc _ _ _ _ W5 SC NR CO LO BT R2 P) as (ee' & E3 & R3). exists ee'. split.
        * cbn [insert]. rewrite AI. cbn [Relin_Spec.exec]. rewrite L2. cbn [bind]. rewrite AL.
          replace (match k with KRelin => map fst vs | _ => ev f (map fst vs) end) with (ev f (map fst vs)) by (destruct k; congruence).
          match goal with |- bind ?a _ = _ => replace a with (Some ee2) by (symmetry; exact E2) end. auto.
        * cbn [defs]. rewrite <- app_assoc. auto.
    - cbn in W, SC, NR, CO, LO, TN, P. destruct W as (W1 & W2 & W3 & W4 & W5 & W6 & W7 & W8 & W9 & W10 & W11).
      destruct SC as (SF & SB & SC). destruct NR as [NRb NR]. destruct CO as (AO & (VO & EQ & LI & BO & DO) & EY & COb & CO).
      destruct LO as (LF1 & LF2 & LOb & LO).
      destruct (rel_lookups _ _ _ _ R W1) as (vs & L1 & L2 & F). rewrite L1 in P. cbn [bind] in P.
      assert (TB : top body < n) by lia. assert (TC : top c < n) by lia.
      assert (LM : forall r, In r (inits ++ bargs ++ ys ++ res) -> r < n).
      { intros r Hr. assert (r <= list_max (inits ++ bargs ++ ys ++ res)); [|lia].
        pose proof (proj1 (list_max_le (inits ++ bargs ++ ys ++ res) _) (le_n _)) as LM. rewrite Forall_forall in LM. apply LM; auto. }
      assert (BNb : forall r, In r bargs -> r < n) by (intros; apply LM; rewrite !in_app_iff; auto).
      assert (BN : forall r, In r res -> r < n) by (intros; apply LM; rewrite !in_app_iff; auto).
      set (gr := fun r => if all_secret sec res then bef x r else deg x r).
      (* one property of the carried values *)
      set (carried := fun ws : list val => map fst ws = map fst ws /\
             (Forall2 okv bargs (encrypts D sec bargs ws) /\ map fst (encrypts D sec bargs ws) = map fst ws) /\
             (Forall2 (fun r w => okq r (gr r) w) res (encrypts D sec res ws) /\ map fst (encrypts D sec res ws) = map fst ws)).
      assert (CI : carried vs).
      { split; auto. split.
        - apply (flows (deg x) inits); auto. intros a b Hab. split.
          + apply SF. rewrite !in_app_iff. auto.
          + intros Sb. apply LF1; auto. rewrite in_app_iff. auto.
        - apply (flows gr inits); auto. intros a b Hab. split.
          + apply SF. rewrite !in_app_iff. auto.
          + intros Sb. apply LF2; auto. rewrite in_app_iff. auto. }
      assert (CY : forall ws, Forall2 okv ys ws -> carried ws).
      { intros ws Fw. split; auto. split.
        - apply (flows (deg x) ys); auto; [lia|]. intros a b Hab. split.
          + apply SF. rewrite !in_app_iff. auto.
          + intros Sb. apply LF1; auto. rewrite in_app_iff. auto.
        - apply (flows gr ys); auto; [lia|]. intros a b Hab. split.
          + apply SF. rewrite !in_app_iff. auto.
          + intros Sb. apply LF2; auto. rewrite in_app_iff. auto. }
      assert (IT : forall t zs, Nat.iter t (fun o => bind o (fun ws => bind (assign bargs ws e) (fun e1 => bind (plain body e1) (fun e2 => lookups e2 ys)))) (Some (map fst vs)) = Some zs ->
        exists ws, Nat.iter t (fun o => bind o (fun ws => bind (assign bargs (encrypts D sec' bargs ws) ee) (fun e1 => bind (exec (insert sec (ins x) n body) e1) (fun e2 => lookups e2 ys)))) (Some vs) = Some ws /\
          map fst ws = zs /\ carried ws).
      { clear P. intros t'. induction t' as [|t' IHt]; intros zs P.
        - cbn in P. injection P as <-. exists vs. auto.
        - rewrite iter_S in P. match type of P with bind ?o _ = _ => destruct o as [zs0|] eqn:E0; cbn [bind] in P; [|discriminate] end.
          destruct (IHt zs0 eq_refl) as (ws & E1 & Ew & (_ & (C1 & C2) & _)). rewrite iter_S, E1. cbn [bind].
          destruct (assign bargs zs0 e) as [e1|] eqn:A1; cbn [bind] in P; [|discriminate].
          destruct (plain body e1) as [e2|] eqn:PB; cbn [bind] in P; [|discriminate].
          rewrite <- Ew, <- C2 in A1. destruct (finish_plain bargs _ av e e1 ee R W2 W7 BNb A1 C1) as (ee1 & A2 & R1).
          rewrite encrypts_low by auto. rewrite A2. cbn [bind]. destruct (IHb _ _ _ _ W9 SB NRb COb LOb TB R1 PB) as (ee2 & EB & R2). rewrite EB. cbn [bind].
          destruct (rel_lookups _ _ _ ys R2) as (ws' & L3 & L4 & F'). { intros v Hv. apply W10; auto. }
          exists ws'. rewrite L4. split; auto. split; [|auto]. rewrite L3 in P. congruence. }
      destruct (Nat.iter t _ (Some (map fst vs))) as [zs|] eqn:E0; cbn [bind] in P; [|discriminate].
      destruct (IT t zs E0) as (ws & E1 & Ew & (_ & _ & (C1 & C2))).
      destruct (assign res zs e) as [e1|] eqn:A1; cbn [bind] in P; [|discriminate]. rewrite <- Ew, <- C2 in A1.
      destruct (all_secret sec res && ins x (hd 0 res)) eqn:AI.
      + assert (AS : all_secret sec res = true) by (apply andb_prop in AI; tauto). unfold gr in C1. rewrite AS in C1.
        destruct (finish res (insert sec (ins x) n c) _ av e e1 ee R W3 W8 BN A1 AI DO C1) as (ee1 & ee2 & E2a & E2 & R2).
        destruct (IHc _ _ _ _ W11 SC NR CO LO TC R2 P) as (ee' & E3 & R3). exists ee'. split.
        * cbn [insert]. rewrite AI. cbn [Relin_Spec.exec]. rewrite L2. cbn [bind]. match goal with |- bind ?a _ = _ => replace a with (Some ws) by (symmetry; exact E1) end. cbn [bind].
          rewrite encrypts_high by auto. rewrite E2a. cbn [bind]. rewrite E2. auto.
        * cbn [defs]. rewrite <- app_assoc. auto.
      + assert (C1' : Forall2 okv res (encrypts D sec res ws)).
        { eapply F2_impl; [|apply C1]. intros r w Hr O. unfold okv, gr in *. destruct (all_secret sec res) eqn:AS; auto.
          unfold okq in *. destruct (snd w) as [d|]; auto. destruct O as (S1 & B1 & Cv). repeat split; auto; try lia.
          apply (undecided res); auto. rewrite AS. auto. }
        destruct (finish_plain res _ av e e1 ee R W3 W8 BN A1 C1') as (ee2 & E2 & R2).
        destruct (IHc _ _ _ _ W11 SC NR CO LO TC R2 P) as (ee' & E3 & R3). exists ee'. split.
        * cbn [insert]. rewrite AI. cbn [Relin_Spec.exec]. rewrite L2. cbn [bind]. match goal with |- bind ?a _ = _ => replace a with (Some ws) by (symmetry; exact E1) end. cbn [bind]. rewrite encrypts_low by auto. rewrite E2. auto.
        * cbn [defs]. rewrite <- app_assoc. auto.
  Qed.
End Sound.
