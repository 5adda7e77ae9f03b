From Coq Require Import Setoid Morphisms ZArith QArith Qpower Lqa List Bool Lia Arith.
From Verif Require Import Mgmt_Model Mgmt_Spec Mgmt_Proofs Mgmt_Passes Scale_Model Scale_Proofs ScaleCkks_Model ScaleCkks_Spec ScaleCkks_Proofs ScaleCkks_Main.
Import ListNotations.
Open Scope Z_scope.

Lemma eqs_refl a : eqs a a. Proof. intros k. apply Qeq_refl. Qed.
Lemma eqs_sym a b : eqs a b -> eqs b a. Proof. intros H k. apply Qeq_sym, H. Qed.
Lemma eqs_trans a b c : eqs a b -> eqs b c -> eqs a c. Proof. intros H K k. eapply Qeq_trans; [apply H|apply K]. Qed.
Lemma pow2_pos s : (0 < pow2 s)%Q.
Proof. apply Qpower_0_lt. reflexivity. Qed.
Lemma pow2_add a b : (pow2 (a + b) == pow2 a * pow2 b)%Q.
Proof. unfold pow2. apply Qpower_plus. intros H. discriminate H. Qed.
Lemma scaled_eqs s a b : eqs a b -> eqs (scaled s a) (scaled s b).
Proof. intros H k. unfold scaled. now rewrite (H k). Qed.
Lemma scaled_cancel s a b : eqs (scaled s a) (scaled s b) -> eqs a b.
Proof.
  intros H k. specialize (H k). unfold scaled in H. apply (Qmult_inj_l _ _ (pow2 s)); [|exact H].
  pose proof (pow2_pos s). intros E. rewrite E in H0. discriminate H0.
Qed.

Section Payloads.
  Variables (q : nat -> Z) (lev : nat -> nat) (ev : opk -> list slots -> slots) (p : prog).
  Variables (C E : nat -> slots) (sc : nat -> Z) (delta : nat -> option Z).
  Hypothesis W : wf p.
  Hypothesis Ops : scheme_ops ev p.
  Hypothesis Rules : forall i, In i (body p) -> managed p (res i) = true -> scale_rule q lev p sc i.
  Hypothesis Deltas : forall i k, In i (body p) -> op i = AdjustScale k -> exists v, args i = [v] /\ managed p v = true /\
    delta (res i) = if sc (res i) =? sc v then None else Some (sc (res i) - sc v).
  Hypothesis X : execution q lev ev p C E sc delta.
  Lemma carry s l : (forall v, In v l -> managed p v = true -> eqs (E v) (scaled s (C v))) ->
    carries s (map (managed p) l) (map C l) (map E l).
  Proof.
    induction l as [|v l IH]; intros H; cbn; [easy|]. split.
    - destruct (managed p v) eqn:M; [apply H; auto; now left|now apply X].
    - apply IH. intros; apply H; auto. now right.
  Qed.
  Lemma payload v : In v (values p) -> managed p v = true -> eqs (E v) (scaled (sc v) (C v)).
  Proof.
    intros V M. unfold values in V. rewrite app_assoc in V.
    apply (walk_ind (managed p) (fun v => eqs (E v) (scaled (sc v) (C v))) _ _ (proj1 W)); [| |exact V|exact M].
    2:{ intros u U Mu. apply X. now apply (input_managed p u W). }
    clear v V M. intros i I Q M. pose proof (Rules i I M) as R. pose proof (ex_clear _ _ _ _ _ _ _ _ X i I) as Cl.
    pose proof (ex_exec _ _ _ _ _ _ _ _ X i I M) as Ex.
    destruct (managed_cases p i W I M) as [Oi|(Oi & Se & u & Iu & Mu)].
    { unfold exec_op, clear_op in *. rewrite Oi in *. destruct (args i) as [|a [|]]; try easy.
      eapply eqs_trans; [exact Ex|]. apply scaled_eqs. now apply eqs_sym. }
    specialize (Ops i I Se).
    assert (Mv : match op i with Ins | Slice | Other _ => eqs (E (res i)) (scaled (sc (res i)) (C (res i))) | _ => True end).
    { assert (K : match op i with Ins | Slice | Other _ => True | _ => False end -> eqs (E (res i)) (scaled (sc (res i)) (C (res i)))).
      { intros O. assert (Li : linear ev (op i) (map (managed p) (args i))) by (destruct (op i); easy).
        assert (E1 : eqs (E (res i)) (ev (op i) (map E (args i)))) by (unfold exec_op in Ex; destruct (op i); easy).
        assert (E2 : eqs (C (res i)) (ev (op i) (map C (args i)))) by (unfold clear_op in Cl; destruct (op i); easy).
        assert (R' : forall v, In v (args i) -> managed p v = true -> sc v = sc (res i)) by (unfold scale_rule in R; destruct (op i); easy).
        eapply eqs_trans; [exact E1|]. eapply eqs_trans; [|apply scaled_eqs, eqs_sym, E2]. apply Li. apply carry.
        intros v V Mv. rewrite <- (R' v V Mv). now apply Q. }
      destruct (op i); auto; now apply K. }
    unfold exec_op, clear_op, scale_rule in *.
    destruct (op i) eqn:Eo; try exact Mv; clear Mv; try easy.
    - destruct (args i) as [|a [|a' [|]]] eqn:Ea; try easy.
      assert (Ma : managed p a = true) by (apply Ops; now left). assert (Ma' : managed p a' = true) by (apply Ops; right; now left).
      pose proof (Q a (or_introl eq_refl) Ma) as Qa. pose proof (Q a' (or_intror (or_introl eq_refl)) Ma') as Qb.
      rewrite (R a) in Qa by (auto; now left). rewrite (R a') in Qb by (auto; right; now left).
      intros k. rewrite (Ex k), (Qa k), (Qb k). unfold scaled. rewrite (Cl k). ring.
    - destruct (args i) as [|a [|a' [|]]] eqn:Ea; try easy.
      assert (Ma : managed p a = true) by (apply Ops; now left). assert (Ma' : managed p a' = true) by (apply Ops; right; now left).
      pose proof (Q a (or_introl eq_refl) Ma) as Qa. pose proof (Q a' (or_intror (or_introl eq_refl)) Ma') as Qb.
      rewrite (R a) in Qa by (auto; now left). rewrite (R a') in Qb by (auto; right; now left).
      intros k. rewrite (Ex k), (Qa k), (Qb k). unfold scaled. rewrite (Cl k). ring.
    - destruct R as (a & a' & Ea & Rs). rewrite Ea in *.
      assert (Ma : managed p a = true) by (apply Ops; now left). assert (Ma' : managed p a' = true) by (apply Ops; right; now left).
      pose proof (Q a (or_introl eq_refl) Ma) as Qa. pose proof (Q a' (or_intror (or_introl eq_refl)) Ma') as Qb.
      intros k. rewrite (Ex k), (Qa k), (Qb k). unfold scaled. rewrite (Cl k), Rs, pow2_add. ring.
    - destruct R as (a & Ea & Rs). rewrite Ea in *. destruct Iu as [->|[]].
      pose proof (Q u (or_introl eq_refl) Mu) as Qa. cbn [hd] in Ex.
      apply (scaled_cancel (q (lev u))). eapply eqs_trans; [exact Ex|]. intros k. rewrite (Qa k). unfold scaled. rewrite (Cl k).
      replace (sc u) with (q (lev u) + sc (res i)) by lia. rewrite pow2_add. ring.
    - destruct (args i) as [|a [|]] eqn:Ea; try easy. destruct Iu as [->|[]]. pose proof (Q u (or_introl eq_refl) Mu) as Qa.
      rewrite (R u) in Qa by (auto; now left). eapply eqs_trans; [exact Ex|]. eapply eqs_trans; [exact Qa|]. now apply scaled_eqs, eqs_sym.
    - destruct (args i) as [|a [|]] eqn:Ea; try easy. destruct Iu as [->|[]]. pose proof (Q u (or_introl eq_refl) Mu) as Qa.
      rewrite (R u) in Qa by (auto; now left). eapply eqs_trans; [exact Ex|]. eapply eqs_trans; [exact Qa|]. now apply scaled_eqs, eqs_sym.
    - destruct (args i) as [|a [|]] eqn:Ea; try easy. destruct Iu as [->|[]]. pose proof (Q u (or_introl eq_refl) Mu) as Qa.
      rewrite (R u) in Qa by (auto; now left). eapply eqs_trans; [exact Ex|]. eapply eqs_trans; [exact Qa|]. now apply scaled_eqs, eqs_sym.
    - destruct (Deltas i id I Eo) as (v & A & Mv & D). rewrite A in *. pose proof (Q v (or_introl eq_refl) Mv) as Qa. rewrite D in Ex.
      destruct (Z.eqb_spec (sc (res i)) (sc v)) as [e|].
      + eapply eqs_trans; [exact Ex|]. eapply eqs_trans; [exact Qa|]. rewrite e. now apply scaled_eqs, eqs_sym.
      + intros k. rewrite (Ex k), (Qa k). unfold scaled. rewrite (Cl k).
        setoid_replace (pow2 (sc (res i))) with (pow2 (sc v) * pow2 (sc (res i) - sc v))%Q; [ring|]. rewrite <- pow2_add.
        replace (sc v + (sc (res i) - sc v)) with (sc (res i)) by lia. reflexivity.
  Qed.
End Payloads.

Section Program.
  Variables (P : ckks) (first : bool) (lev : nat -> nat) (p : prog) (b : nat -> Z).
  Notation D := (ld P).
  Notation s0 := (input_scale P first).
  Hypothesis HD : 0 < D.
  Hypothesis Hq : forall l, 0 <= lq_at P l.
  Hypothesis W : wf p.
  Hypothesis Est : estimate D s0 (lq_at P) lev p b.
  Notation q2 := (q2 P first lev p).
  Variable ev : opk -> list slots -> slots.

  Notation st := (ckks_scales true P s0 lev (fun _ => None) p).
  Notation start := (Cs (fresh p) 0 (fun _ => None) lev true).
  Notation bd := (fst (walk (adjust_op P (secret p) (managed p) st) start (body p))).
  Notation sF := (snd (walk (adjust_op P (secret p) (managed p) st) start (body p))).
  Notation link := (linked P (secret p) (managed p) st lev (fresh p) sF bd).
  Lemma map_link i l l' : In i (body p) -> incl l (args i) -> Forall2 (link i) l l' -> map (managed q2) l' = map (managed p) l.
  Proof.
    intros I H F. revert H. induction F as [|v v' l l' L F IH]; intros H; cbn [map]; [easy|].
    f_equal; [|apply IH; intros u U; apply H; now right].
    apply (link_mg P first lev p b HD Hq W Est i v v' I); [apply H; now left|exact L].
  Qed.
  Lemma ops2 : scheme_ops ev p -> scheme_ops ev q2.
  Proof.
    intros Ops j J S. destruct (each2 P first lev p b Est j J) as [(i & v & t & jj & I & V & Wt & X & Jb & E)|(i & l' & I & E & F)].
    - destruct (adj_merge P first lev p v t jj X) as [(Em & _)|(d & _ & _ & _ & Em)].
      + rewrite E, Em. destruct X as ((k & ->) & _). exact Logic.I.
      + rewrite E, Em. exact Logic.I.
    - subst j. cbn [op args res] in *.
      assert (S' : secret p (res i) = true).
      { rewrite (sec2 P first lev p b W Est) in S by (apply (res_values2 P first lev p (Inst (op i) l' (res i))), J).
        rewrite gs_old in S by (now apply res_N). exact S. }
      specialize (Ops i I S').
      pose proof (map_link i (args i) l' I (incl_refl _) F) as Ml.
      assert (All : (forall v, In v (args i) -> managed p v = true) -> forall v, In v l' -> managed q2 v = true).
      { intros H v' V'. assert (K : In (managed q2 v') (map (managed q2) l')) by now apply in_map. rewrite Ml in K.
        apply in_map_iff in K as (v & <- & V). now apply H. }
      destruct (op i); auto; now rewrite Ml.
  Qed.
  (** the messages of the new program solve the equations of the old one *)
  Lemma clear2 C : proper ev -> (forall j, In j (body q2) -> clear_op ev C j) -> forall i, In i (body p) -> clear_op ev C i.
  Proof.
    intros Pr H i I. destruct (all2 P first lev p b Est i I) as (l' & J & F).
    assert (K : Forall2 (fun v v' => eqs (C v) (C v')) (args i) l').
    { eapply Forall2_impl; [|exact F]. cbn. intros v v' V _ L. unfold linked in L. destruct (want _ _ _ _ _ i v) as [t|].
      - destruct L as (j & Jb & <- & X). pose proof (H _ (adj2 P first lev p v t j X Jb)) as Hj.
        destruct (adj_merge P first lev p v t j X) as [(Em & _)|(d & Id & Od & Rd & Em)]; rewrite Em in Hj.
        + destruct X as ((k & O) & A & _). unfold clear_op in Hj. rewrite O, A in Hj. now apply eqs_sym.
        + assert (Hd : clear_op ev C d).
          { apply H. cbn [ScaleCkks_Main.q2 body]. apply in_map_iff. exists d. split; [|now apply (init_bd P first lev p)].
            unfold merge_init. now rewrite Od. }
          unfold clear_op in Hd, Hj. cbn [op args res] in Hj. rewrite Od in Hd. rewrite Rd in Hd.
          destruct (args d) as [|a [|]]; try easy. eapply eqs_trans; [exact Hd|]. now apply eqs_sym.
      - subst v'. apply eqs_refl. }
    specialize (H _ J). unfold clear_op in *. cbn [op args res] in H.
    assert (Two : forall f : Q -> Q -> Q, Proper (Qeq ==> Qeq ==> Qeq) f -> (match l' with [a; b] => eqs (C (res i)) (fun k => f (C a k) (C b k)) | _ => False end) ->
      match args i with [a; b] => eqs (C (res i)) (fun k => f (C a k) (C b k)) | _ => False end).
    { intros f Pf. inversion K as [|a a' l1 l2 Ka K1]; subst; [easy|]. inversion K1 as [|c c' l3 l4 Kc K2]; subst; [easy|]. inversion K2; subst; [|easy].
      intros T k. rewrite (T k). now rewrite (Ka k), (Kc k). }
    assert (One : match l' with [a] => eqs (C (res i)) (C a) | _ => False end -> match args i with [a] => eqs (C (res i)) (C a) | _ => False end).
    { inversion K as [|a a' l1 l2 Ka K1]; subst; [easy|]. inversion K1; subst; [|easy]. intros T. eapply eqs_trans; [exact T|]. now apply eqs_sym. }
    assert (Mv : eqs (C (res i)) (ev (op i) (map C l')) -> eqs (C (res i)) (ev (op i) (map C (args i)))).
    { intros T. eapply eqs_trans; [exact T|]. apply Pr. clear -K. induction K; cbn; constructor; [now apply eqs_sym|easy]. }
    destruct (op i); auto.
    - apply (Two Qplus); [exact Qplus_comp|exact H].
    - apply (Two Qminus); [exact Qminus_comp|exact H].
    - apply (Two Qmult); [exact Qmult_comp|exact H].
    - exact (One H).
    - exact (One H).
    - exact (One H).
    - exact (One H).
    - exact (One H).
    - exact (One H).
  Qed.
End Program.
