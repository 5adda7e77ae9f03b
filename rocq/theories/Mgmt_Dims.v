From Coq Require Import List Bool Arith Lia.
From Verif Require Import Mgmt_Model Mgmt_Spec Mgmt_Proofs Mgmt_Passes Mgmt_Sim Mgmt_Sim2 Mgmt_Levels Mgmt_Pipeline Mgmt_Strict Mgmt_Clean Mgmt_Ps Mgmt_Compose.
Import ListNotations.
Local Arguments Nat.ltb : simpl never.
Local Arguments Nat.leb : simpl never.

(** * Validation succeeds *)
Lemma lev_ps_det b L k l a a' : lev_g L k l = Some a -> ps_g b k l = Some a' -> a = a'.
Proof.
  intros G P. apply ps_rl in P. destruct k; cbn [rl_g lev_g matched orb] in *;
    try (destruct (all_equal (cts l)) eqn:E; [|discriminate]; rewrite hd_cmax in G by exact E; congruence).
  - destruct l as [|[y|] [|]]; cbn in *; congruence.
  - destruct l as [|[y|] [|]]; try discriminate. destruct (_ <=? _); congruence.
  - destruct l as [|[y|] [|]]; try discriminate. destruct (_ <=? _); congruence.
  - discriminate.
Qed.
Lemma run_det b L p e F F' : run (lev_g L) e p = Some F -> run (ps_g b) e p = Some F' -> F = F'.
Proof.
  revert e. induction p as [|i p IH]; intros e R R'; cbn in *; [congruence|].
  destruct (lev_g _ _ _) as [a|] eqn:G; [|easy]. destruct (ps_g _ _ _) as [a'|] eqn:P; [|easy].
  rewrite (lev_ps_det _ _ _ _ _ _ G P) in R. eauto.
Qed.
Lemma lev_bound L k l x : lev_g L k l = Some (Some x) -> (forall y, In (Some y) l -> y <= L) -> x <= L.
Proof.
  intros G B. destruct k; cbn [lev_g] in G;
    try (destruct (all_equal (cts l)); [|discriminate]; injection G as G; apply B, cts_In; destruct (cts l); [discriminate|];
         injection G as ->; now left).
  - destruct l as [|[y|] [|]]; try discriminate. destruct (Nat.leb_spec (y + 1) L); [|discriminate]. now injection G as <-.
  - destruct l as [|[y|] [|]]; try discriminate. destruct (Nat.leb_spec (y + k) L); [|discriminate]. now injection G as <-.
  - destruct l as [|[y|] [|]]; try discriminate. now injection G as <-.
Qed.
Lemma lev_bounded L p e F : run (lev_g L) e p = Some F -> bounded L e -> bounded L F.
Proof.
  revert e. induction p as [|i p IH]; intros e R B; cbn in *; [now injection R as <-|].
  destruct (lev_g _ _ _) as [a|] eqn:G; [|easy]. eapply IH; [exact R|]. apply bounded_upd; [exact B|].
  intros x ->. eapply lev_bound; [exact G|]. intros y Hy. apply in_map_iff in Hy as (v & Ev & _). eauto.
Qed.
Lemma inputs_bounded p L : bounded L (inputs p 0).
Proof. intros v l. unfold inputs. destruct (mem v (sargs p)); [|discriminate]. intros [= <-]. lia. Qed.
Lemma lev_validate L b q F F' :
  wf q -> run (lev_g L) (inputs q 0) (body q) = Some F -> run (ps_g b) (inputs q 0) (body q) = Some F' -> L <= b ->
  validate b q = true.
Proof.
  intros W R R' Le. pose proof (run_det _ _ _ _ _ _ R R') as <-.
  pose proof (lev_bounded _ _ _ _ R (inputs_bounded q L)) as B.
  assert (RR : run rl_g (inputs q 0) (body q) = Some F) by (eapply run_impl; [|exact R']; apply ps_rl).
  unfold validate. apply forallb_forall. intros v _.
  pose proof (levels_cap q F b W RR v) as C. destruct (F v) as [x|] eqn:Fv; cbn in C.
  - specialize (B v x Fv). rewrite (proj2 (Nat.leb_le x b)) in C by lia. rewrite C. cbn. now rewrite andb_false_r.
  - destruct C as [->| ->]; cbn; now rewrite andb_false_r.
Qed.

(** * Numbers of components *)
Definition two (y : option nat) : Prop := y = None \/ y = Some 2.
(** components before the relinearizations are inserted *)
Definition sd_g (k : opk) (l : list (option nat)) : option (option nat) :=
  match k with
  | Init => match l with [y] => Some y | _ => None end
  | ModReduce => match l with [Some a] => Some (Some a) | _ => None end
  | LevelReduce _ | LevelReduceMin | Relin | AdjustScale _ => None
  | Mul => if (length l =? 2) && forallb (Nat.eqb 2) (cts l) then Some (hd_error (cts l)) else None
  | _ => if forallb (Nat.eqb 2) (cts l) then Some (hd_error (cts l)) else None
  end.
Lemma two_cts l : Forall two l -> forallb (Nat.eqb 2) (cts l) = true.
Proof. induction 1 as [|y l [->| ->] H IH]; cbn; auto. Qed.
Lemma two_hd l : Forall two l -> two (hd_error (cts l)).
Proof. induction 1 as [|y l [->| ->] H IH]; cbn; unfold two; auto. Qed.
Lemma sd_optg : optg sd_g.
Proof.
  intros k l a. destruct k; cbn [sd_g]; try discriminate;
    try (destruct (forallb _ _); [intros [= <-]; apply hd_some|discriminate]).
  - destruct (_ && _); [intros [= <-]; apply hd_some|discriminate].
  - destruct l as [|y [|]]; try discriminate. intros [= <-]. cbn. now rewrite orb_false_r.
  - destruct l as [|[b|] [|]]; try discriminate. now intros [= <-].
Qed.
Lemma sd_two k l a : sd_g k l = Some a -> Forall two l -> two a.
Proof.
  intros G H. destruct k; cbn [sd_g] in G; try discriminate;
    try (destruct (forallb _ _); [injection G as <-; now apply two_hd|discriminate]).
  - destruct (_ && _); [injection G as <-; now apply two_hd|discriminate].
  - destruct l as [|y [|]]; try discriminate. injection G as <-. now inversion H.
  - destruct l as [|[b|] [|]]; try discriminate. injection G as <-. now inversion H.
Qed.
Lemma sd_run p e : plain_ops p -> (forall v, two (e v)) -> exists F, run sd_g e p = Some F /\ forall v, two (F v).
Proof.
  revert e. induction p as [|i p IH]; intros e P T; cbn; [eauto|].
  destruct (P i (or_introl eq_refl)) as (Mi & Li).
  assert (F2 : Forall two (map e (args i))) by (apply Forall_forall; intros y Hy; apply in_map_iff in Hy as (v & <- & _); auto).
  assert (G : sd_g (op i) (map e (args i)) = Some (hd_error (cts (map e (args i))))).
  { destruct (op i) eqn:Eo; try discriminate Mi; cbn; rewrite two_cts by exact F2; try easy.
    rewrite map_length, Li by easy. easy. }
  rewrite G. apply IH; [intros j Hj; apply P; now right|].
  intros v. unfold upd. destruct (v =? res i); [now apply two_hd|auto].
Qed.
Lemma run_two p e F : run sd_g e p = Some F -> (forall v, two (e v)) -> forall v, two (F v).
Proof.
  revert e. induction p as [|i p IH]; intros e R T; cbn in *; [now injection R as <-|].
  destruct (sd_g _ _) as [a|] eqn:G; [|easy]. apply (IH _ R).
  intros v. unfold upd. destruct (v =? res i); [|auto]. eapply sd_two; [exact G|].
  apply Forall_forall. intros y Hy. apply in_map_iff in Hy as (u & <- & _). auto.
Qed.

Lemma relin_dims p F :
  wf p -> run sd_g (inputs p 2) (body p) = Some F ->
  exists F', run dim_g (inputs p 2) (body (insert_relin p)) = Some F' /\ agree (fresh p) F F'.
Proof.
  intros (Sp & _) R. pose proof (secret_run sd_g p 2 F sd_optg R) as Hs.
  assert (T : forall v, two (F v)).
  { eapply run_two; [exact R|]. intros v. unfold inputs, two. destruct (mem _ _); auto. }
  unfold insert_relin. cbn [body].
  destruct (walk_run (relin_op (secret p)) sd_g dim_g
              (fun n e e' => fresh p <= n /\ agree (fresh p) e e') (sargs p ++ pargs p) (body p)
              (inputs p 2) F (fresh p) (inputs p 2)) as (F' & R' & _ & Ag); auto.
  - intros n e e' i a Hi (Le & Ag) HF G Ha.
    destruct (below_fresh p i Hi) as (Br & Ba).
    assert (Ma : map e' (args i) = map e (args i)) by now apply (agree_map (fresh p)).
    assert (T2 : Forall two (map e (args i))).
    { apply Forall_forall. intros y Hy. apply in_map_iff in Hy as (v & <- & Hv). rewrite HF by auto. auto. }
    assert (Same : dim_g (op i) (map e (args i)) = Some a ->
              exists e2, run dim_g e' [i] = Some e2 /\ fresh p <= n /\ agree (fresh p) (upd e (res i) a) e2).
    { intros G'. cbn. rewrite Ma, G'. eexists. split; [reflexivity|]. split; [exact Le|now apply agree_upd]. }
    unfold relin_op. destruct (op i) eqn:Eo; cbn [sd_g] in G; try discriminate G; try (apply Same; exact G).
    + (* Mul *)
      destruct ((length (map e (args i)) =? 2) && _) eqn:C; [|discriminate].
      injection G as <-. apply andb_true_iff in C as (C1 & _). apply Nat.eqb_eq in C1. rewrite map_length in C1.
      destruct (args i) as [|x [|y [|]]] eqn:Ea; try discriminate C1.
      cbn [map] in T2. inversion T2 as [|? ? Tx T3]; subst. inversion T3 as [|? ? Ty _]; subst.
      cbn [forallb]. rewrite (Hs (res i)), !Hs, <- (HF x), <- (HF y) by (cbn; auto).
      cbn [map] in *. 
      destruct Tx as [Tx|Tx], Ty as [Ty|Ty]; rewrite Tx, Ty in *; cbn [is_some andb] in *; rewrite ?andb_false_r;
        try (apply Same; reflexivity).
      rewrite Ha. cbn. injection Ma as -> ->. cbn. rewrite upd_same.
      eexists. split; [reflexivity|]. split; [lia|].
      intros v Hv. unfold upd at 1 3. destruct (v =? res i); [easy|]. rewrite upd_other by lia. auto.
    + apply Same. destruct (map e (args i)) as [|y [|]]; try discriminate. injection G as <-.
      inversion T2 as [|? ? Ty _]; subst. destruct Ty as [->| ->]; easy.
  - split; [easy|now intros x _].
  - eauto.
Qed.
Lemma dim_matched k l a y : dim_g k l = Some a -> matched k = true -> In (Some y) l -> y = 2.
Proof.
  intros G M I. apply cts_In in I.
  destruct k; try discriminate M; cbn [dim_g] in G;
    try (destruct (forallb _ _) eqn:E; [|discriminate]; rewrite forallb_forall in E; apply E in I; now apply Nat.eqb_eq in I).
  destruct (cts l) as [|a1 c]; [easy|]. destruct a1 as [|[|[|]]]; try discriminate. destruct c as [|a2 c]; [now destruct I|].
  destruct a2 as [|[|[|]]]; try discriminate. destruct c; [|discriminate]. destruct I as [<-|[<-|[]]]; easy.
Qed.
Lemma dim_adjust k l a v : dim_g k l = Some a -> matched k = true -> In v l -> forall j, dim_g (AdjustScale j) [v] = Some v.
Proof. intros G M I j. destruct v as [y|]; [|easy]. rewrite (dim_matched _ _ _ _ G M I). easy. Qed.

Lemma insert_all_dims ckks m b p :
  wf p -> plain_ops (body p) ->
  exists F, run dim_g (inputs p 2) (body (insert_all ckks m b p)) = Some F /\
    map F (outs (insert_all ckks m b p)) = map (fun v => if secret p v then Some 2 else None) (outs p).
Proof.
  intros W P.
  destruct (sd_run (body p) (inputs p 2) P) as (F0 & R0 & T0).
  { intros v. unfold inputs, two. destruct (mem _ _); auto. }
  destruct (insert_init_wf p W) as (W1 & K1). destruct (insert_mod_reduce_wf m _ W1) as (W2 & K2).
  destruct (p3_wf m p W) as (W3 & K3).
  destruct (insert_init_sim sd_g p (inputs p 2) F0 (fun y => eq_refl) R0) as (F1 & R1 & A1).
  assert (R1' := R1). rewrite <- (keeps_inputs _ _ 2 K1) in R1'.
  assert (S1 : forall v, secret (insert_init p) v = is_some (F1 v)) by exact (secret_run sd_g _ 2 F1 sd_optg R1').
  destruct (insert_mod_reduce_sim sd_g m (insert_init p) (inputs p 2) F1) with (3 := W1) (4 := R1) as (F2 & R2 & A2 & O2).
  { intros v Sv. rewrite S1 in Sv. destruct (F1 v); [easy|discriminate]. }
  { intros i a l Hi Em G Si Fi. rewrite S1, Fi in Si. destruct a; [easy|discriminate]. }
  assert (R2' := R2). rewrite <- (keeps_inputs _ _ 2 (keeps_trans _ _ _ K1 K2)) in R2'.
  destruct (relin_dims _ F2 W2 R2') as (F3 & R3 & A3). fold (p3_of m p) in R3.
  rewrite (keeps_inputs _ _ 2 (keeps_trans _ _ _ K1 K2)) in R3.
  assert (HI : forall i v k, In i (body (p3_of m p)) -> matched (op i) = true -> In v (args i) -> secret (p3_of m p) v = true ->
            inserted k -> dim_g k [F3 v] = Some (F3 v)).
  { intros i v k Hi Mi Hv Sv Ik.
    pose proof (run_eqn dim_g _ _ _ _ i (proj1 W3) R3 Hi) as Eq.
    assert (Sv' : is_some (F3 v) = true).
    { assert (Od : optg dim_g).
      { clear. intros k l a. destruct k; cbn [dim_g];
          try (destruct (forallb _ _); [intros [= <-]; apply hd_some|discriminate]).
        - rewrite <- cmax_some. destruct (cts l) as [|x c]; [intros [= <-]; easy|].
          intros H. destruct x as [|[|[|]]]; try discriminate H. destruct c as [|y c]; [injection H as <-; easy|].
          destruct y as [|[|[|]]]; try discriminate H. destruct c; [|discriminate]. injection H as <-. easy.
        - destruct l as [|[y|] [|]]; try discriminate. now intros [= <-].
        - destruct l as [|[y|] [|]]; try discriminate. now intros [= <-].
        - destruct l as [|[y|] [|]]; try discriminate. now intros [= <-].
        - destruct l as [|[[|[|[|[|]]]]|] [|]]; try discriminate. now intros [= <-]. }
      assert (R3' := R3). rewrite <- (keeps_inputs _ _ 2 K3) in R3'.
      rewrite <- (secret_run dim_g _ 2 F3 Od R3'). exact Sv. }
    destruct (F3 v) as [y|] eqn:Ey; [|discriminate].
    assert (y = 2) as -> by (eapply dim_matched; [exact Eq|exact Mi|]; apply in_map_iff; eauto).
    destruct Ik as [->|[(j & ->)|[->|(j & ->)]]]; easy. }
  pose proof (handle_cross_level_sim dim_g ckks b _ _ F3 W3 R3 HI) as C.
  destruct (last_passes dim_g dim_g ckks m b p _ F3 W C) as (F & RF & VF & OF).
  { intros i e a v k _ Mi G Hv. eapply dim_adjust; [exact G|exact Mi|]. now apply in_map. }
  exists F. split; [exact RF|]. rewrite OF.
  unfold p3_of at 1. cbn [insert_relin outs].
  rewrite (map_outs (insert_mod_reduce m (insert_init p)) F2 F3).
  2:{ intros v Hv. apply A3, outs_fresh, Hv. }
  rewrite O2. cbn [insert_init outs]. rewrite (map_outs p F0 F1).
  2:{ intros v Hv. apply A1, outs_fresh, Hv. }
  apply map_ext. intros v. rewrite (secret_run sd_g p 2 F0 sd_optg R0). destruct (T0 v) as [->| ->]; easy.
Qed.

(** * The cleartext function *)
Section Ev.
  Context {V : Type} (d : V) (ev : opk -> list V -> V).
  Notation g := (ev_g d ev).
  Lemma ev_id k y : is_mgmt k = true -> g k [y] = Some y.
  Proof. unfold ev_g. now intros ->. Qed.
  Lemma insert_all_ev ckks m b p e F :
    wf p -> run g e (body p) = Some F ->
    exists F', run g e (body (insert_all ckks m b p)) = Some F' /\
      (forall v, In v (values p) -> F' v = F v) /\
      map F' (outs (insert_all ckks m b p)) = map F (outs p).
  Proof.
    intros W R.
    destruct (insert_init_wf p W) as (W1 & K1). destruct (insert_mod_reduce_wf m _ W1) as (W2 & K2).
    destruct (p3_wf m p W) as (W3 & K3).
    destruct (insert_init_sim g p e F (fun y => eq_refl) R) as (F1 & R1 & A1).
    destruct (insert_mod_reduce_sim g m (insert_init p) e F1) with (3 := W1) (4 := R1) as (F2 & R2 & A2 & O2); auto.
    destruct (insert_relin_sim g _ e F2 (fun y => eq_refl) R2) as (F3 & R3 & A3). fold (p3_of m p) in R3.
    pose proof (handle_cross_level_sim g ckks b _ _ F3 W3 R3) as C.
    destruct (last_passes g g ckks m b p e F3 W) as (F' & RF & VF & OF).
    { apply C. intros i v k _ _ _ _ [->|[(j & ->)|[->|(j & ->)]]]; easy. }
    { easy. }
    exists F'. split; [exact RF|]. split.
    - intros v Hv. rewrite VF by eauto using keeps_values.
      rewrite A3 by eauto using fresh_values, keeps_values. rewrite A2 by eauto using fresh_values, keeps_values.
      apply A1, fresh_values, Hv.
    - rewrite OF. unfold p3_of at 1. cbn [insert_relin outs].
      rewrite (map_outs (insert_mod_reduce m (insert_init p)) F2 F3).
      2:{ intros v Hv. apply A3, outs_fresh, Hv. }
      rewrite O2. cbn [insert_init outs]. apply map_outs. intros v Hv. apply A1, outs_fresh, Hv.
  Qed.
End Ev.
