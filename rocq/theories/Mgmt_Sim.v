From Coq Require Import List Bool Arith Lia.
From Verif Require Import Mgmt_Model Mgmt_Spec Mgmt_Proofs Mgmt_Passes.
Import ListNotations.
Local Arguments Nat.ltb : simpl never.
Local Arguments Nat.leb : simpl never.

Lemma run_chain_below {A} (g : opk -> list A -> option A) d n q n' e e2 x :
  chain d n q n' -> run g e q = Some e2 -> x < n -> e2 x = e x.
Proof.
  intros C R H. eapply run_unchanged; eauto. rewrite (chain_res _ _ _ _ _ C). lia.
Qed.

(** * Runs of the inserted code *)
Section Emit.
  Context {A : Type} (g : opk -> list A -> option A).

  Lemma init_args_run sec isinit l n q l' n' e :
    (forall v, In v l -> v < n) ->
    (forall v, In v l -> sec v = false -> g Init [e v] = Some (e v)) ->
    init_args sec isinit n l = (q, l', n') ->
    exists e2, run g e q = Some e2 /\ (forall x, x < n -> e2 x = e x) /\ map e2 l' = map e l.
  Proof.
    revert n q l' n' e. induction l as [|v l IH]; intros n q l' n' e B H E; cbn in E.
    - injection E as <- <- <-. exists e. cbn. auto.
    - assert (Bv : v < n) by (apply B; now left).
      assert (Bl : forall x, In x l -> x < n) by (intros; apply B; now right).
      destruct (negb (sec v) && negb (isinit v)) eqn:Ec.
      + destruct (init_args _ _ (S n) l) as [[q1 l1] n1] eqn:E1. injection E as <- <- <-.
        apply andb_true_iff in Ec as [Ec _]. apply negb_true_iff in Ec.
        assert (Hu : forall x, x < n -> upd e n (e v) x = e x) by (intros; apply upd_other; lia).
        destruct (IH (S n) q1 l1 n1 (upd e n (e v))) as (e2 & R & Ag & M); [|  |exact E1|].
        { intros x Hx. apply Bl in Hx. lia. }
        { intros x Hx. rewrite Hu by auto. apply H. now right. }
        exists e2. cbn. rewrite (H v (or_introl eq_refl) Ec). split; [exact R|]. split.
        * intros x Hx. rewrite Ag by lia. auto.
        * rewrite M, Ag, upd_same by lia. f_equal. apply map_ext_Forall, Forall_In. auto.
      + destruct (init_args _ _ n l) as [[q1 l1] n1] eqn:E1. injection E as <- <- <-.
        destruct (IH n q1 l1 n1 e) as (e2 & R & Ag & M); auto.
        { intros x Hx. apply H. now right. }
        exists e2. split; [exact R|]. split; [exact Ag|]. cbn. rewrite M, Ag by auto. easy.
  Qed.

  Lemma reduce_operands_run t vs n l q l' n' e :
    (forall v, In v vs -> v < n) -> (forall v, In v l -> v < n) ->
    (forall v, In v vs -> g ModReduce [e v] = Some (t (e v))) ->
    reduce_operands vs n l = (q, l', n') ->
    exists e2, run g e q = Some e2 /\ (forall x, x < n -> e2 x = e x) /\
      Forall2 (fun x x' => e2 x' = if mem x vs then t (e x) else e x) l l' /\
      (forall x, e2 x = e x \/ exists v, In v vs /\ e2 x = t (e v)).
  Proof.
    revert n l q l' n' e. induction vs as [|v vs IH]; intros n l q l' n' e Bvs Bl H E; cbn in E.
    - injection E as <- <- <-. exists e. cbn. split; [easy|]. split; [easy|]. split; [|auto].
      clear. induction l; constructor; auto.
    - destruct (reduce_operands vs _ _) as [[q1 l1] n1] eqn:E1. injection E as <- <- <-.
      assert (Bv : v < n) by (apply Bvs; now left).
      assert (Bv' : forall x, In x vs -> x < n) by (intros; apply Bvs; now right).
      set (e1 := upd e n (t (e v))).
      assert (Hu : forall x, x < n -> e1 x = e x) by (intros; apply upd_other; lia).
      destruct (IH (S n) (replace v n l) q1 l1 n1 e1) as (e2 & R & Ag & F2 & Or); [| | |exact E1|].
      { intros x Hx. apply Bv' in Hx. lia. }
      { intros x Hx. apply replace_In in Hx as [->|Hx]; [lia|]. apply Bl in Hx. lia. }
      { intros x Hx. rewrite Hu by auto. apply H. now right. }
      exists e2. cbn. rewrite (H v (or_introl eq_refl)). split; [exact R|]. split; [|split].
      + intros x Hx. rewrite Ag by lia. auto.
      + assert (Nn : mem n vs = false).
        { apply mem_false. intros K. apply Bv' in K. lia. }
        clear - F2 Bl Hu Nn Bv. revert l1 F2. induction l as [|x l IHl]; intros l1 F2; cbn in F2.
        * inversion F2. constructor.
        * inversion F2 as [|? x' ? l2 Hx Hl]; subst. constructor.
          -- change (mem x (v :: vs)) with ((x =? v) || mem x vs).
             assert (x < n) by (apply Bl; now left).
             destruct (Nat.eqb_spec x v) as [->|Nv]; cbn [orb].
             ++ rewrite Hx, Nn. unfold e1. now rewrite upd_same.
             ++ rewrite Hx, Hu by auto. easy.
          -- apply IHl; [|easy]. intros; apply Bl; now right.
      + intros x. destruct (Or x) as [K|(w & Hw & K)].
        * rewrite K. unfold e1, upd. destruct (x =? n); [right|auto]. exists v. split; [now left|easy].
        * right. exists w. split; [now right|]. rewrite K, Hu by auto. easy.
  Qed.

  Definition needs (lev : nat -> lvl) (r : lvl) (v : nat) : bool :=
    match lev v, r with LInt a, LInt b => a <? b | LInt _, LMax => true | _, _ => false end.

  Lemma match_operands_run (R : nat -> A -> Prop) ckks lev r vs n id l q l' n' id' e :
    (forall v, In v vs -> v < n) -> (forall v, In v l -> v < n) ->
    (forall v, In v vs -> forall n1 id1 e1, v < n1 -> n <= n1 -> e1 v = e v ->
       match lev v, r with
       | LInt a, LInt b => a < b -> forall q v' n2 id2, bridge ckks n1 id1 v a b = (q, v', n2, id2) ->
                           exists e2, run g e1 q = Some e2 /\ R v (e2 v')
       | LInt a, LMax => exists y, g LevelReduceMin [e1 v] = Some y /\ R v y
       | _, _ => True
       end) ->
    match_operands ckks lev r vs n id l = Some (q, l', n', id') ->
    exists e2, run g e q = Some e2 /\ (forall x, x < n -> e2 x = e x) /\
      Forall2 (fun x x' => if mem x vs && needs lev r x then n <= x' /\ R x (e2 x') else x' = x /\ e2 x' = e x) l l'.
  Proof.
    revert n id l q l' n' id' e. induction vs as [|v vs IH]; intros n id l q l' n' id' e Bvs Bl H E; cbn in E.
    - injection E as <- <- <- <-. exists e. cbn. split; [easy|]. split; [easy|].
      clear. induction l; constructor; auto.
    - assert (Bv : v < n) by (apply Bvs; now left).
      assert (Bv' : forall x, In x vs -> x < n) by (intros; apply Bvs; now right).
      (* the case of an operand that is left alone *)
      assert (Skip : needs lev r v = false -> match_operands ckks lev r vs n id l = Some (q, l', n', id') ->
        exists e2, run g e q = Some e2 /\ (forall x, x < n -> e2 x = e x) /\
          Forall2 (fun x x' => if mem x (v :: vs) && needs lev r x then n <= x' /\ R x (e2 x') else x' = x /\ e2 x' = e x) l l').
      { intros Nv E1. destruct (IH n id l q l' n' id' e) as (e2 & Re & Ag & F2); auto.
        { intros x Hx. apply H. now right. }
        exists e2. split; [easy|]. split; [easy|].
        eapply Forall2_impl; [|exact F2]. intros x x' _ _ K.
        change (mem x (v :: vs)) with ((x =? v) || mem x vs).
        destruct (Nat.eqb_spec x v) as [->|]; cbn [orb]; [|exact K].
        rewrite Nv, andb_false_r in K. now rewrite Nv, andb_false_r. }
      (* the case of a replaced operand *)
      assert (Repl : forall q1 v1 n1 q2 l2 n2 id1 id2 e1,
        n <= v1 < n1 -> needs lev r v = true ->
        run g e q1 = Some e1 -> (forall x, x < n -> e1 x = e x) -> R v (e1 v1) ->
        match_operands ckks lev r vs n1 id1 (replace v v1 l) = Some (q2, l2, n2, id2) ->
        exists e2, run g e (q1 ++ q2) = Some e2 /\ (forall x, x < n -> e2 x = e x) /\
          Forall2 (fun x x' => if mem x (v :: vs) && needs lev r x then n <= x' /\ R x (e2 x') else x' = x /\ e2 x' = e x) l l2).
      { intros q1 v1 n1 q2 l2 n2 id1 id2 e1 Bv1 Nv R1 Ag1 HR E2.
        destruct (IH n1 id1 (replace v v1 l) q2 l2 n2 id2 e1) as (e2 & R2 & Ag2 & F2); auto.
        - intros x Hx. apply Bv' in Hx. lia.
        - intros x Hx. apply replace_In in Hx as [->|Hx]; [lia|]. apply Bl in Hx. lia.
        - intros x Hx n3 id3 e3 L1 L2 Ex. apply H; [now right|easy|lia|]. rewrite Ex. apply Ag1. auto.
        - exists e2. split; [rewrite run_app, R1; exact R2|]. split.
          + intros x Hx. rewrite Ag2 by lia. auto.
          + assert (Nn : mem v1 vs = false).
            { apply mem_false. intros K. apply Bv' in K. lia. }
            clear - F2 Bl Ag1 Nn Bv HR Nv Bv1. revert l2 F2.
            induction l as [|x l IHl]; intros l2 F2; cbn in F2.
            * inversion F2. constructor.
            * inversion F2 as [|? x' ? l3 Hx Hl]; subst. constructor.
              -- change (mem x (v :: vs)) with ((x =? v) || mem x vs).
                 assert (x < n) by (apply Bl; now left).
                 destruct (Nat.eqb_spec x v) as [->|Nx]; cbn [orb].
                 ++ rewrite Nv. cbn [andb]. rewrite Nn in Hx. cbn [andb] in Hx. destruct Hx as (-> & ->). split; [lia|easy].
                 ++ destruct (mem x vs && needs lev r x); [split; [lia|tauto]|]. rewrite <- Ag1 by auto. easy.
              -- apply IHl; [|easy]. intros; apply Bl; now right. }
      pose proof (H v (or_introl eq_refl)) as Hv.
      destruct (lev v) as [|a| |] eqn:La; [discriminate| | |];
        destruct r as [|b| |]; try (apply Skip; [unfold needs; rewrite La; easy|exact E]).
      + destruct (a <? b) eqn:Lt.
        * destruct (bridge ckks n id v a b) as [[[q1 v1] n1] id1] eqn:Eb.
          destruct (match_operands _ _ _ vs _ _ _) as [[[[q2 l2] n2] id2]|] eqn:E2; [|discriminate].
          injection E as <- <- <- <-.
          destruct (Hv n id e Bv (le_n _) eq_refl (proj1 (Nat.ltb_lt _ _) Lt) _ _ _ _ Eb) as (e1 & R1 & HR).
          destruct (bridge_chain _ _ _ _ _ _ _ _ _ _ [v] Eb (or_introl eq_refl)) as (C1 & B1 & _).
          eapply Repl; eauto.
          -- unfold needs. now rewrite La.
          -- intros. eapply run_chain_below; eauto.
        * apply Skip; [unfold needs; now rewrite La|exact E].
      + destruct (match_operands _ _ _ vs _ _ _) as [[[[q2 l2] n2] id2]|] eqn:E2; [|discriminate].
        injection E as <- <- <- <-.
        destruct (Hv n id e Bv (le_n _) eq_refl) as (y & Gy & HR).
        apply (Repl [Inst LevelReduceMin [v] n] n (S n) q2 l2 n2 id id2 (upd e n y)); auto.
        * unfold needs. now rewrite La.
        * cbn. now rewrite Gy.
        * intros x Hx. apply upd_other. lia.
        * now rewrite upd_same.
  Qed.

  Lemma adjust_operands_run dep vs n id l q l' n' id' e :
    (forall v, In v vs -> v < n) -> (forall v, In v l -> v < n) ->
    (forall v k, In v vs -> g (AdjustScale k) [e v] = Some (e v)) ->
    adjust_operands dep vs n id l = (q, l', n', id') ->
    exists e2, run g e q = Some e2 /\ (forall x, x < n -> e2 x = e x) /\ map e2 l' = map e l.
  Proof.
    revert n id l q l' n' id' e. induction vs as [|v vs IH]; intros n id l q l' n' id' e Bvs Bl H E; cbn in E.
    - injection E as <- <- <- <-. exists e. cbn. auto.
    - assert (Bv : v < n) by (apply Bvs; now left).
      assert (Bv' : forall x, In x vs -> x < n) by (intros; apply Bvs; now right).
      assert (Hvs : forall x k, In x vs -> g (AdjustScale k) [e x] = Some (e x)) by (intros; apply H; now right).
      destruct (dep v) as [| |[|k]]; try (eapply IH; eauto; fail).
      destruct (adjust_operands _ vs _ _ _) as [[[q1 l1] n1] id1] eqn:E1. injection E as <- <- <- <-.
      set (e1 := upd e n (e v)).
      assert (Hu : forall x, x < n -> e1 x = e x) by (intros; apply upd_other; lia).
      destruct (IH (S n) (S id) (replace v n l) q1 l1 n1 id1 e1) as (e2 & R & Ag & M); [| | |exact E1|].
      { intros x Hx. apply Bv' in Hx. lia. }
      { intros x Hx. apply replace_In in Hx as [->|Hx]; [lia|]. apply Bl in Hx. lia. }
      { intros x k Hx. rewrite Hu by auto. auto. }
      exists e2. cbn. rewrite (H v id (or_introl eq_refl)). split; [exact R|]. split.
      + intros x Hx. rewrite Ag by lia. auto.
      + rewrite M. unfold replace. rewrite map_map. apply map_ext_Forall, Forall_In. intros x Hx.
        destruct (Nat.eqb_spec x v) as [->|]; [unfold e1; apply upd_same|]. auto.
  Qed.
End Emit.

(** ** A bridge of operations that do nothing *)
Lemma bridge_id {A} (g : opk -> list A -> option A) ckks n id v a b q v' n' id' e :
  (forall k, k = ModReduce \/ (exists j, k = LevelReduce j) \/ (exists j, k = AdjustScale j) -> g k [e v] = Some (e v)) ->
  bridge ckks n id v a b = (q, v', n', id') -> v < n ->
  exists e2, run g e q = Some e2 /\ e2 v' = e v.
Proof.
  intros H E L. unfold bridge in E.
  destruct (1 <? b - a), ckks; injection E as <- <- <- <-; cbn;
    repeat (rewrite ?upd_same; rewrite H by eauto 6); eexists; (split; [reflexivity|]); now rewrite ?upd_same.
Qed.
