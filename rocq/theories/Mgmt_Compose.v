From Coq Require Import List Bool Arith Lia.
From Verif Require Import Mgmt_Model Mgmt_Spec Mgmt_Proofs Mgmt_Passes Mgmt_Sim Mgmt_Sim2 Mgmt_Levels Mgmt_Pipeline Mgmt_Strict Mgmt_Clean Mgmt_Ps.
Import ListNotations.
Local Arguments Nat.ltb : simpl never.
Local Arguments Nat.leb : simpl never.

(** * Levels *)
Lemma relin_levels p R L :
  wf p -> run rl_g (inputs p 0) (body p) = Some R -> bounded L R ->
  exists F, run rl_g (inputs p 0) (body (insert_relin p)) = Some F /\ agree (fresh p) R F /\ bounded L F.
Proof.
  intros (Sp & _) RR Bd. unfold insert_relin. cbn [body].
  destruct (walk_run (relin_op (secret p)) rl_g rl_g
              (fun n e e' => fresh p <= n /\ agree (fresh p) e e' /\ bounded L e') (sargs p ++ pargs p) (body p)
              (inputs p 0) R (fresh p) (inputs p 0)) as (F & RF & _ & Ag & Bf); auto.
  - intros n e e' i a Hi (Le & Ag & Be) HF G Ha.
    destruct (below_fresh p i Hi) as (Br & Ba).
    assert (Ma : map e' (args i) = map e (args i)) by now apply (agree_map (fresh p)).
    assert (Bl : forall l, a = Some l -> l <= L) by (intros l ->; eapply Bd; eauto).
    assert (Same : exists e2, run rl_g e' [i] = Some e2 /\ fresh p <= n /\ agree (fresh p) (upd e (res i) a) e2 /\ bounded L e2).
    { cbn. rewrite Ma, G. eexists. split; [reflexivity|]. split; [exact Le|]. split; [now apply agree_upd|now apply bounded_upd]. }
    unfold relin_op. destruct (op i) eqn:Eo; try exact Same.
    destruct (_ && _); [|exact Same]. cbn [fst snd run op args res].
    rewrite Ma, G. cbn [map]. rewrite upd_same.
    replace (rl_g Relin [a]) with (Some a) by now destruct a.
    eexists. split; [reflexivity|]. split; [lia|]. split.
    + intros x Hx. unfold upd at 1 3. destruct (x =? res i); [easy|]. rewrite upd_other by lia. auto.
    + repeat apply bounded_upd; auto.
  - split; [easy|]. split; [now intros x _|]. intros v l. unfold inputs. destruct (mem v (sargs p)); [|discriminate].
    intros [= <-]. lia.
  - exists F. auto.
Qed.

Lemma lev_adjust L id y : lev_g L (AdjustScale id) [y] = Some y.
Proof. now destruct y. Qed.
Lemma ps_adjust b id y : ps_g b (AdjustScale id) [y] = Some y.
Proof. now destruct y. Qed.
Lemma dq_init y : dq_g Init [y] = Some y.
Proof. easy. Qed.

(** the first three passes *)
Definition p3_of (m : mode) (p : prog) : prog := insert_relin (insert_mod_reduce m (insert_init p)).
Lemma p3_wf m p : wf p -> wf (p3_of m p) /\ keeps p (p3_of m p).
Proof.
  intros W. unfold p3_of.
  destruct (insert_init_wf p W) as (W1 & K1). destruct (insert_mod_reduce_wf m _ W1) as (W2 & K2).
  destruct (insert_relin_wf _ W2) as (W3 & K3). eauto using keeps_trans.
Qed.
Lemma keeps_inputs p q a : keeps p q -> inputs q a = inputs p a.
Proof. intros (E & _). unfold inputs. now rewrite E. Qed.
Lemma map_outs {A} p (F F' : nat -> A) : (forall v, In v (outs p) -> F' v = F v) -> map F' (outs p) = map F (outs p).
Proof. intros H. apply map_ext_Forall, Forall_In. exact H. Qed.
Lemma outs_fresh p v : In v (outs p) -> v < fresh p.
Proof. intros H. apply fresh_lt. rewrite !in_app_iff. auto. Qed.

Lemma p3_levels m p D L :
  wf p -> run dq_g (inputs p 0) (body p) = Some D -> (forall v d, D v = Some d -> needed m d <= L) ->
  exists R, run rl_g (inputs p 0) (body (p3_of m p)) = Some R /\ bounded L R /\
    (forall v, In v (values p) -> R v = option_map (phi m) (D v)) /\
    map R (outs (p3_of m p)) = map (option_map (out_level m (map D (outs p)))) (map D (outs p)).
Proof.
  intros W Rd HL. unfold p3_of.
  destruct (insert_init_wf p W) as (W1 & K1). destruct (insert_mod_reduce_wf m _ W1) as (W2 & K2).
  destruct (insert_init_sim dq_g p (inputs p 0) D dq_init Rd) as (D1 & Rd1 & A1).
  rewrite <- (keeps_inputs _ _ 0 K1) in Rd1.
  (* values without a number keep what they had *)
  assert (HL1 : forall v d, D1 v = Some d -> needed m d <= L).
  { intros v d Hv. destruct (Nat.lt_ge_cases v (fresh p)) as [Lt|Ge].
    - eapply HL. rewrite <- A1; eauto.
    - destruct (in_dec Nat.eq_dec v (map res (body (insert_init p)))) as [Hin|Hout].
      + (* the new values are mgmt.init of plaintexts *)
        exfalso. apply in_map_iff in Hin as (i & Ei & Hi).
        assert (Sv : secret (insert_init p) v = true).
        { rewrite (secret_run dq_g _ 0 D1 dq_optg Rd1), Hv. easy. }
        assert (Sn : is_some (D1 v) = false); [|now rewrite Hv in Sn].
        clear Hv Sv.
        assert (Key : forall q n b, walk (init_op (secret p) (inits p)) n b = q -> fresh p <= n ->
                  (forall j, In j b -> res j < fresh p) ->
                  forall j, In j (fst q) -> fresh p <= res j ->
                  exists u, j = Inst Init [u] (res j) /\ secret p u = false /\ (u < fresh p \/ ~ below (fresh p) b)).
        { intros q n b. revert q n. induction b as [|j b IH]; intros q n <- Ln Hb k Hk Lk; cbn in Hk; [easy|].
          destruct (init_op (secret p) (inits p) n j) as [q1 n1] eqn:E1.
          destruct (walk (init_op (secret p) (inits p)) n1 b) as [q2 n2] eqn:E2. cbn in Hk.
          apply in_app_iff in Hk as [Hk|Hk].
          - clear E2. unfold init_op in E1. destruct (takes_init (op j) && secret p (res j)).
            + destruct (init_args (secret p) (inits p) n (args j)) as [[qa la] na] eqn:Ea. injection E1 as <- <-.
              apply in_app_iff in Hk as [Hk|[<-|[]]].
              2:{ cbn in Lk. specialize (Hb j (or_introl eq_refl)). lia. }
              assert (G : forall l n qa la na, init_args (secret p) (inits p) n l = (qa, la, na) ->
                        In k qa -> exists u, k = Inst Init [u] (res k) /\ secret p u = false /\ In u l).
              { clear. induction l as [|v l IH]; intros n qa la na E H; cbn in E; [injection E as <- <- <-; easy|].
                destruct (secret p v) eqn:Sv; cbn [negb andb] in E.
                - destruct (init_args _ _ n l) as [[q1 l1] n1] eqn:E1. injection E as <- <- <-.
                  destruct (IH _ _ _ _ E1 H) as (u & ? & ? & ?). exists u. cbn; auto.
                - destruct (negb (inits p v)).
                  + destruct (init_args _ _ (S n) l) as [[q1 l1] n1] eqn:E1. injection E as <- <- <-.
                    destruct H as [<-|H]; [exists v; cbn; auto|].
                    destruct (IH _ _ _ _ E1 H) as (u & ? & ? & ?). exists u. cbn; auto.
                  + destruct (init_args _ _ n l) as [[q1 l1] n1] eqn:E1. injection E as <- <- <-.
                    destruct (IH _ _ _ _ E1 H) as (u & ? & ? & ?). exists u. cbn; auto. }
              destruct (G _ _ _ _ _ Ea Hk) as (u & E & Su & Iu). exists u. split; [exact E|]. split; [exact Su|].
              destruct (Nat.lt_ge_cases u (fresh p)); [auto|]. right. intros Bl. apply Bl with (v := u) in Iu; [lia|now left].
            + injection E1 as <- <-. destruct Hk as [<-|[]]. specialize (Hb j (or_introl eq_refl)). lia.
          - destruct (IH (q2, n2) n1 E2) with (j := k) as (u & E & Su & Iu); auto.
            + assert (X : n <= n1); [|lia]. clear - E1. pose proof (init_op_emits (secret p) (inits p) n j) as Em.
              rewrite E1 in Em. cbn in Em. exact (proj1 Em).
            + intros j' Hj'. apply Hb. now right.
            + exists u. split; [exact E|]. split; [exact Su|]. destruct Iu as [Iu|Iu]; [auto|]. right.
              intros Bl. apply Iu. intros x Hx. apply Bl. now right. }
        destruct (Key _ _ _ eq_refl (le_n _) (fun j Hj => proj1 (below_fresh p j Hj)) i Hi ltac:(lia)) as (u & E & Su & [Iu|Iu]).
        2:{ exfalso. apply Iu, below_fresh. }
        rewrite <- Ei.
        pose proof (run_eqn dq_g _ _ _ _ i (proj1 W1) Rd1 Hi) as Eq. rewrite E in Eq. cbn in Eq.
        injection Eq as Eq. rewrite E. cbn. rewrite <- Eq. rewrite A1 by exact Iu.
        rewrite <- (secret_run dq_g p 0 D dq_optg Rd). exact Su.
      + rewrite (run_unchanged dq_g _ _ _ _ Rd1 Hout) in Hv. unfold inputs in Hv. destruct (mem v _); [|discriminate].
        injection Hv as <-. destruct m as [|[|]]; cbn; lia. }
  destruct (insert_mod_reduce_levels m _ D1 L W1 Rd1 HL1) as (R2 & RR2 & P2 & B2 & O2).
  rewrite <- (keeps_inputs _ _ 0 K2) in RR2.
  destruct (relin_levels _ R2 L W2 RR2 B2) as (R3 & RR3 & A3 & B3).
  exists R3. split; [|split; [exact B3|split]].
  - now rewrite (keeps_inputs _ _ 0 K2), (keeps_inputs _ _ 0 K1) in RR3.
  - intros v Hv. rewrite A3 by eauto using fresh_values, keeps_values.
    rewrite P2 by eauto using fresh_values, keeps_values. rewrite A1 by now apply fresh_values. easy.
  - cbn [insert_relin outs] in *. rewrite (map_outs (insert_mod_reduce m (insert_init p)) R2 R3).
    2:{ intros v Hv. apply A3, outs_fresh, Hv. }
    rewrite O2. cbn [insert_init outs].
    rewrite (map_outs p D D1); [easy|]. intros v Hv. apply A1, outs_fresh, Hv.
Qed.

Lemma insert_all_eq ckks m b p :
  insert_all ckks m b p =
  handle_cross_depth ckks (snd (handle_cross_level ckks b (p3_of m p))) (fst (handle_cross_level ckks b (p3_of m p))).
Proof. unfold insert_all, p3_of. now destruct (handle_cross_level _ _ _). Qed.
Lemma hcl_outs ckks b p : outs (fst (handle_cross_level ckks b p)) = outs p.
Proof. unfold handle_cross_level. now destruct (walk _ _ _). Qed.
Lemma hcd_outs ckks id p : outs (handle_cross_depth ckks id p) = outs p.
Proof. unfold handle_cross_depth. now destruct ckks. Qed.
Lemma insert_all_outs ckks m b p : outs (insert_all ckks m b p) = outs (p3_of m p).
Proof. now rewrite insert_all_eq, hcd_outs, hcl_outs. Qed.
Lemma insert_all_wf ckks m b p : wf p -> wf (insert_all ckks m b p) /\ keeps p (insert_all ckks m b p).
Proof.
  intros W. rewrite insert_all_eq.
  destruct (p3_wf m p W) as (W3 & K3). destruct (handle_cross_level_wf ckks b _ W3) as (W4 & K4).
  destruct (handle_cross_depth_wf ckks (snd (handle_cross_level ckks b (p3_of m p))) _ W4) as (W5 & K5).
  split; [exact W5|]. eauto using keeps_trans.
Qed.

(** the last two passes *)
Lemma last_passes {A} (g g' : opk -> list A -> option A) ckks m b p e (R : nat -> A) :
  wf p ->
  (exists F, run g' e (body (fst (handle_cross_level ckks b (p3_of m p)))) = Some F /\ agree (fresh (p3_of m p)) R F) ->
  (forall i e a v k, In i (body (fst (handle_cross_level ckks b (p3_of m p)))) -> matched (op i) = true ->
     g' (op i) (map e (args i)) = Some a -> In v (args i) -> g' (AdjustScale k) [e v] = Some (e v)) ->
  exists F, run g' e (body (insert_all ckks m b p)) = Some F /\ (forall v, In v (values (p3_of m p)) -> F v = R v) /\
    map F (outs (insert_all ckks m b p)) = map R (outs (p3_of m p)).
Proof.
  intros W (F4 & R4 & A4) HA. rewrite insert_all_eq.
  destruct (p3_wf m p W) as (W3 & K3). destruct (handle_cross_level_wf ckks b _ W3) as (W4 & K4).
  destruct (handle_cross_depth_sim g' ckks (snd (handle_cross_level ckks b (p3_of m p))) _ e F4 R4 HA) as (F5 & R5 & A5).
  assert (V : forall v, In v (values (p3_of m p)) -> F5 v = R v).
  { intros v Hv. rewrite A5 by eauto using fresh_values, keeps_values. apply A4, fresh_values, Hv. }
  exists F5. split; [exact R5|]. split; [exact V|].
  rewrite hcd_outs, hcl_outs. apply map_outs. intros v Hv.
  rewrite A5; [apply A4, outs_fresh, Hv|]. apply outs_fresh. now rewrite hcl_outs.
Qed.

Lemma insert_all_levels ckks m b L p D :
  wf p -> run dq_g (inputs p 0) (body p) = Some D -> (forall v d, D v = Some d -> needed m d <= L) -> L <= b ->
  exists F, run (lev_g L) (inputs p 0) (body (insert_all ckks m b p)) = Some F /\
    (forall v, In v (values p) -> F v = option_map (phi m) (D v)) /\
    map F (outs (insert_all ckks m b p)) = map (option_map (out_level m (map D (outs p)))) (map D (outs p)).
Proof.
  intros W Rd HL Lb. destruct (p3_wf m p W) as (W3 & K3).
  destruct (p3_levels m p D L W Rd HL) as (R & RR & Bd & V & O).
  pose proof RR as RR'. rewrite <- (keeps_inputs _ _ 0 K3) in RR'.
  pose proof (cross_level_strict ckks b L _ R W3 RR' Bd Lb) as C. rewrite (keeps_inputs _ _ 0 K3) in C.
  destruct (last_passes (lev_g L) (lev_g L) ckks m b p (inputs p 0) R W C) as (F & RF & VF & OF).
  { intros. apply lev_adjust. }
  exists F. split; [exact RF|]. split.
  - intros v Hv. rewrite VF by eauto using keeps_values. auto.
  - now rewrite OF.
Qed.

(** without a bound on the depths *)
Lemma finite_bound (D : nat -> option nat) (f : nat -> nat) l :
  exists L, forall v d, In v l -> D v = Some d -> f d <= L.
Proof.
  induction l as [|v l (L & IH)]; [exists 0; easy|].
  destruct (D v) as [d|] eqn:E.
  - exists (Nat.max L (f d)). intros u d' [<-|Hu] Ed; [rewrite E in Ed; injection Ed as <-; lia|].
    specialize (IH u d' Hu Ed). lia.
  - exists L. intros u d' [<-|Hu] Ed; [congruence|]. eauto.
Qed.
Lemma run_values {A} (g : opk -> list A -> option A) p e F v : run g e (body p) = Some F -> ~ In v (values p) -> F v = e v.
Proof.
  intros R N. eapply run_unchanged; [exact R|]. intros H. apply N. unfold values. rewrite !in_app_iff. auto.
Qed.
Lemma insert_all_ps ckks m b p D :
  wf p -> run dq_g (inputs p 0) (body p) = Some D ->
  exists F, run (ps_g b) (inputs p 0) (body (insert_all ckks m b p)) = Some F /\
    (forall v, In v (values p) -> F v = option_map (phi m) (D v)) /\
    map F (outs (insert_all ckks m b p)) = map (option_map (out_level m (map D (outs p)))) (map D (outs p)).
Proof.
  intros W Rd. destruct (p3_wf m p W) as (W3 & K3).
  destruct (finite_bound D (needed m) (values p)) as (L & HL).
  destruct (p3_levels m p D L W Rd) as (R & RR & Bd & V & O).
  { intros v d Hd. destruct (in_dec Nat.eq_dec v (values p)) as [Hin|Hout]; [eauto|].
    rewrite (run_values _ _ _ _ _ Rd Hout) in Hd. unfold inputs in Hd. destruct (mem v (sargs p)) eqn:Mv; [|discriminate].
    apply mem_iff in Mv. exfalso. apply Hout. unfold values. rewrite in_app_iff. auto. }
  pose proof RR as RR'. rewrite <- (keeps_inputs _ _ 0 K3) in RR'.
  pose proof (cross_level_ps ckks b _ R W3 RR') as C. rewrite (keeps_inputs _ _ 0 K3) in C.
  destruct (last_passes (ps_g b) (ps_g b) ckks m b p (inputs p 0) R W C) as (F & RF & VF & OF).
  { intros. apply ps_adjust. }
  exists F. split; [exact RF|]. split.
  - intros v Hv. rewrite VF by eauto using keeps_values. auto.
  - now rewrite OF.
Qed.

Lemma ps_laws b : laws (ps_g b).
Proof.
  split; unfold swaps, merges, ps_g; intros; cbn in *; (destruct x as [x|]; cbn in *; [|repeat (inv1; cbn in *); eauto]);
    repeat (inv1; cbn in *); repeat (first [eexists; split; [reflexivity|] | progress cbn]); try (do 2 f_equal; lia).
Qed.

(** a program that was validated *)
Lemma ps_lev b k l a : ps_g b k l = Some a -> (forall x, a = Some x -> x <= b) -> lev_g b k l = Some a.
Proof.
  intros G B. destruct (matched k) eqn:M.
  2:{ rewrite ps_unmatched in G by easy. now apply rl_lev. }
  unfold ps_g in G. rewrite M in G. cbn in G.
  assert (Ga : rl_g k l = Some (cmax (cts l))) by (destruct k; try discriminate M; easy).
  destruct (all_equal (cts l)) eqn:E; cbn in G.
  - rewrite Ga in G. injection G as <-. destruct k; try discriminate M; cbn; now rewrite E, hd_cmax.
  - exfalso. destruct (over b (cts l)) eqn:Ov; cbn in G; [|discriminate]. rewrite Ga in G. injection G as <-.
    unfold over in Ov. destruct (cmax (cts l)) as [c|]; [|discriminate]. apply Nat.ltb_lt in Ov.
    specialize (B c eq_refl). lia.
Qed.
Lemma run_strict b p e F d :
  ssa d p -> run (ps_g b) e p = Some F -> (forall v x, In v (map res p) -> F v = Some x -> x <= b) ->
  run (lev_g b) e p = Some F.
Proof.
  revert d e. induction p as [|i p IH]; intros d e Sd R B; cbn in *; [exact R|].
  destruct Sd as (_ & _ & Sd). destruct (ps_g _ _ _) as [a|] eqn:G; [|easy].
  rewrite (ps_lev _ _ _ _ G).
  - eapply IH; eauto.
  - intros x ->. apply (B (res i)); [auto|]. rewrite (run_final _ _ _ _ _ (res i) Sd R) by (cbn; auto). apply upd_same.
Qed.
Lemma validated_bounded b q F :
  wf q -> run (ps_g b) (inputs q 0) (body q) = Some F -> validate b q = true ->
  forall v x, In v (values q) -> F v = Some x -> x <= b.
Proof.
  intros W R V v x Hv Fv.
  assert (RR : run rl_g (inputs q 0) (body q) = Some F) by (eapply run_impl; [|exact R]; apply ps_rl).
  pose proof (levels_cap q F b W RR v) as C. rewrite Fv in C. cbn in C.
  unfold validate in V. rewrite forallb_forall in V. specialize (V v Hv).
  unfold managed in V. rewrite (secret_run rl_g q 0 F rl_optg RR v), Fv, C in V. cbn in V.
  destruct (Nat.leb_spec x b); [easy|]. discriminate.
Qed.
Lemma validated_run b q F :
  wf q -> run (ps_g b) (inputs q 0) (body q) = Some F -> validate b q = true ->
  run (lev_g b) (inputs q 0) (body q) = Some F.
Proof.
  intros W R V. eapply run_strict; [exact (proj1 W)|exact R|].
  intros v x Hv. eapply validated_bounded; eauto. unfold values. rewrite !in_app_iff. auto.
Qed.
