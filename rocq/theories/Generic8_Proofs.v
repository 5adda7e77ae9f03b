(** The rewrites of secret.generic are sound replacements, continued: concealed destinations, several
    operations at once, nested blocks. *)
From Coq Require Import List Bool Arith Lia Sorted.
From Verif Require Import Generic_Spec Generic_Model Generic_Proofs Generic2_Proofs Generic3_Proofs Generic4_Proofs Generic5_Proofs Generic7_Proofs.
Import ListNotations.
Set Default Proof Using "Type".

Lemma defs_subst_dest i m o : defs (subst_dest i m o) = defs o.
Proof.
  assert (Hm : forall l, Forall (fun o => defs (subst_dest i m o) = defs o) l -> flat_map defs (map (subst_dest i m) l) = flat_map defs l).
  { induction 1 as [|x l Hx Hl IH]; cbn; congruence. }
  induction o using op_ind2; cbn [subst_dest defs]; rewrite ?Hm; auto. destruct (i n); auto.
Qed.
Lemma defs_substs_dest i m l : flat_map defs (map (subst_dest i m) l) = flat_map defs l.
Proof. induction l as [|o l IH]; cbn; rewrite ?defs_subst_dest; congruence. Qed.
Lemma subst_dest_sub (R : val -> val -> Prop) i m o :
  (forall v, In v (uses o) -> R v (look m v)) -> (forall v, In v (uses o) -> R v v) -> sub R o (subst_dest i m o).
Proof.
  assert (Hm : forall l, Forall (fun o => (forall v, In v (uses o) -> R v (look m v)) -> (forall v, In v (uses o) -> R v v) -> sub R o (subst_dest i m o)) l ->
    (forall v, In v (flat_map uses l) -> R v (look m v)) -> (forall v, In v (flat_map uses l) -> R v v) -> subs R l (map (subst_dest i m) l)).
  { induction 1 as [|x l Hx Hl IH]; cbn [flat_map map subs]; auto. intros H H'. split; [apply Hx | apply IH]; intros; (apply H || apply H'); apply in_or_app; auto. }
  induction o as [n xs rs | r x | r x | ins args body ys outs IH | c inits iv iters body ys rs IH | c thn tys els eys rs IHt IHe] using op_ind2; intros H H'; cbn [subst_dest].
  - destruct (i n); cbn [sub]; repeat split; auto; [apply Forall2_map_look; auto | apply Forall2_refl_on; auto].
  - apply sub_refl; auto.
  - apply sub_refl; auto.
  - rewrite sub_generic. cbn [uses] in *. repeat split; auto; try (apply Forall2_refl_on; intros; apply H'; rewrite !in_app_iff; auto).
    apply Hm; auto; intros; (apply H || apply H'); rewrite !in_app_iff; auto.
  - rewrite sub_for. cbn [uses] in *. repeat split; auto; try (apply Forall2_refl_on; intros; apply H'; right; rewrite !in_app_iff; auto).
    + apply H'; left; auto.
    + apply Hm; auto; intros; (apply H || apply H'); right; rewrite !in_app_iff; auto.
  - rewrite sub_if. cbn [uses] in *. repeat split; auto; try (apply Forall2_refl_on; intros; apply H'; right; rewrite !in_app_iff; auto).
    + apply H'; left; auto.
    + apply Hm; auto; intros; (apply H || apply H'); right; rewrite !in_app_iff; auto.
    + apply Hm; auto; intros; (apply H || apply H'); right; rewrite !in_app_iff; auto.
Qed.
Lemma substs_dest_sub (R : val -> val -> Prop) i m l :
  (forall v, In v (flat_map uses l) -> R v (look m v)) -> (forall v, In v (flat_map uses l) -> R v v) -> subs R l (map (subst_dest i m) l).
Proof.
  induction l as [|x l IH]; cbn [flat_map map subs]; auto. intros H H'.
  split; [apply subst_dest_sub | apply IH]; intros; (apply H || apply H'); apply in_or_app; auto.
Qed.
Lemma uses_subst_dest i m o v : In v (uses (subst_dest i m o)) -> In v (uses o) \/ exists u, In u (uses o) /\ v = look m u.
Proof.
  assert (Hl : forall xs, In v (map (look m) xs) -> exists u, In u xs /\ v = look m u).
  { intros xs H. apply in_map_iff in H. destruct H as (u & <- & ?). eauto. }
  assert (Hm : forall l, Forall (fun o => In v (uses (subst_dest i m o)) -> In v (uses o) \/ exists u, In u (uses o) /\ v = look m u) l ->
    In v (flat_map uses (map (subst_dest i m) l)) -> In v (flat_map uses l) \/ exists u, In u (flat_map uses l) /\ v = look m u).
  { induction 1 as [|x l Hx Hll IH]; cbn [map flat_map]; auto. rewrite !in_app_iff. intros [H|H].
    - destruct (Hx H) as [?|(u & ? & ?)]; [tauto|]. right; exists u; rewrite in_app_iff; auto.
    - destruct (IH H) as [?|(u & ? & ?)]; [tauto|]. right; exists u; rewrite in_app_iff; auto. }
  induction o as [n xs rs | r x | r x | ins args body ys outs IH | c inits iv iters body ys rs IH | c thn tys els eys rs IHt IHe] using op_ind2;
    cbn [subst_dest].
  - destruct (i n); cbn [uses]; auto.
  - auto.
  - auto.
  - cbn [uses]. rewrite !in_app_iff. intros [H|[H|H]]; auto. destruct (Hm _ IH H) as [?|(u & ? & ?)]; [tauto|]. right; exists u; rewrite !in_app_iff; auto.
  - cbn [uses In]. rewrite !in_app_iff. intros [H|[H|[H|H]]]; auto. destruct (Hm _ IH H) as [?|(u & ? & ?)]; [tauto|]. right; exists u; rewrite !in_app_iff; auto.
  - cbn [uses In]. rewrite !in_app_iff. intros [H|[H|[H|[H|H]]]]; auto 6.
    + destruct (Hm _ IHt H) as [?|(u & ? & ?)]; [tauto|]. right; exists u; rewrite !in_app_iff; auto.
    + destruct (Hm _ IHe H) as [?|(u & ? & ?)]; [tauto|]. right; exists u; rewrite !in_app_iff; auto 6.
Qed.
Lemma uses_substs_dest i m l v : In v (flat_map uses (map (subst_dest i m) l)) -> In v (flat_map uses l) \/ exists u, In u (flat_map uses l) /\ v = look m u.
Proof.
  induction l as [|x l IH]; cbn [map flat_map]; auto. rewrite !in_app_iff. intros [H|H].
  - destruct (uses_subst_dest _ _ _ _ H) as [?|(u & ? & ?)]; [tauto|]. right; exists u; rewrite in_app_iff; auto.
  - destruct (IH H) as [?|(u & ? & ?)]; [tauto|]. right; exists u; rewrite in_app_iff; auto.
Qed.
Lemma subst_dest_id i m o : (forall v, In v (reads_of i o) -> look m v = v) -> subst_dest i m o = o.
Proof.
  assert (Hm : forall l, Forall (fun o => (forall v, In v (reads_of i o) -> look m v = v) -> subst_dest i m o = o) l ->
    (forall v, In v (flat_map (reads_of i) l) -> look m v = v) -> map (subst_dest i m) l = l).
  { induction 1 as [|x l Hx Hl IH]; cbn [map flat_map]; auto. intro H. rewrite Hx, IH; auto; intros; apply H, in_or_app; auto. }
  induction o as [n xs rs | r x | r x | ins args body ys outs IH | c inits iv iters body ys rs IH | c thn tys els eys rs IHt IHe] using op_ind2;
    cbn [subst_dest reads_of]; intro H; auto.
  - destruct (i n); auto. rewrite map_eq_id; auto.
  - rewrite Hm; auto.
  - rewrite Hm; auto.
  - rewrite !Hm; auto; intros; apply H, in_or_app; auto.
Qed.
Lemma subst_nil o : subst [] o = o.
Proof.
  assert (Hm : forall l, Forall (fun o => subst [] o = o) l -> map (subst []) l = l).
  { induction 1; cbn; congruence. }
  assert (Hl : forall l, map (look []) l = l) by (intro; apply map_id).
  induction o as [n xs rs | r x | r x | ins args body ys outs IH | c inits iv iters body ys rs IH | c thn tys els eys rs IHt IHe] using op_ind2;
    cbn [subst]; rewrite ?Hl, ?Hm; auto.
Qed.
Lemma substs_nil l : map (subst []) l = l.
Proof. apply map_eq_id. intros; apply subst_nil. Qed.
Lemma looks_nil l : map (look []) l = l.
Proof. apply map_id. Qed.

Section Patterns.
Variable V : Type.
Variable sem : nat -> list V -> option (list V).
Variable trips : V -> nat.
Variable index : nat -> V.
Variable truth : V -> bool.
Notation eval := (eval V sem trips index truth).
Notation run := (run V sem trips index truth).
Notation block := (block V sem trips index truth).
Notation env := (env V).
Notation bind := (bind V).
Notation vals := (vals V).
Notation ssa := (ssa V).
Notation sound := (sound V sem trips index truth).
Ltac gen_facts H :=
  destruct (generic_ssa _ _ _ _ _ _ _ _ H) as (Na & Nb & No & Dab & Dao & Dbo & Hun & Hus & Hev).
Ltac gen_inv E :=
  let ea := fresh "ea" in let eb := fresh "eb" in
  match goal with
  | Na : NoDup ?a, No : NoDup ?o |- _ =>
      destruct (generic_inv _ _ _ _ _ _ a _ _ o _ _ Na No E) as (ea & eb & Pa & Py & Li & Lo & Hin & Hea & Hfa & Hrb & Hyb & Ho & Hfo)
  end.

Lemma run_In l o e e' : run l e = Some e' -> In o l ->
  exists l1 l2 e0 ws, l = l1 ++ o :: l2 /\ run l1 e = Some e0 /\ eval o e0 = Some ws.
Proof.
  intros E Hi. destruct (in_split _ _ Hi) as (l1 & l2 & ->). rewrite run_app in E. destruct (run l1 e) as [e0|] eqn:E0; [|discriminate E].
  rewrite run_cons in E. destruct (eval o e0) as [ws|] eqn:Eo; [|discriminate E]. exists l1, l2, e0, ws. auto.
Qed.

(** ** ConcealPlaintextInsert *)
Lemma conceal_insert_sound (U : val -> Prop) insert next next' g new m e e1 :
  ssa next [g] [] e -> conceal_insert insert next g = Some (new, m, next') -> run [g] e = Some e1 ->
  sound U next next' [g] new [] e /\ exists d a, m = [(d, a)] /\ In d (reads_of insert g).
Proof.
  intros Hssa C E1. destruct g as [| | |ins args body ys outs| |]; try discriminate C. cbn [conceal_insert] in C.
  destruct (find _ body) as [o|] eqn:F; [|discriminate C]. apply find_some in F. destruct F as [Fi F].
  destruct (insert_operands o) as [[s d]|] eqn:Io; [|discriminate C]. injection C as <- <- <-.
  apply andb_true_iff in F. destruct F as [F Fd]. apply andb_true_iff in F. destruct F as [F _]. apply andb_true_iff in F. destruct F as [Fp _].
  apply negb_true_iff in Fd. destruct (mem_spec d (args ++ flat_map defs body)) as [|Hd]; [discriminate Fd|]. clear Fd. rewrite in_app_iff in Hd.
  destruct o as [name xs rs| | | | |]; try discriminate Io. cbn [insert_operands] in Io. destruct xs as [|s' [|d' xs]]; try discriminate Io. injection Io as -> ->.
  cbn [is_plain] in Fp.
  gen_facts Hssa. gen_inv E1.
  assert (Hdu : In d (flat_map uses body)) by (apply in_flat_map; eexists; split; [exact Fi | cbn; auto]).
  split; [|exists d, (false, S next); split; auto; cbn [reads_of]; apply in_flat_map; eexists; split; [exact Fi | cbn [reads_of]; rewrite Fp; cbn; auto]].
  assert (Hr : forall v, In v (flat_map results body) -> In v (flat_map defs body)) by (intros; apply results_defs_all; auto).
  assert (Hdv : public d = true /\ exists w, e d = Some w).
  { destruct (run_In _ _ _ _ Hrb Fi) as (l1 & l2 & e0 & ws & Eb & E0 & Eo). pose proof (eval_operands _ _ _ _ _ _ _ _ d Eo) as Hb.
    cbn [Generic_Spec.eval] in Eo. destruct (forallb public (s :: d :: xs)) eqn:Ep; [|discriminate Eo]. cbn [forallb] in Ep.
    apply andb_true_iff in Ep. destruct Ep as [_ Ep]. apply andb_true_iff in Ep. split; [tauto|].
    rewrite (run_frame _ _ _ _ _ _ _ _ _ E0) in Hb.
    - rewrite Hfa in Hb by tauto. destruct (e d) as [w|]; [eauto|]. exfalso; apply Hb; cbn; auto.
    - intro H. apply Hd. right. apply Hr. rewrite Eb, flat_map_app, in_app_iff. auto. }
  destruct Hdv as [Pd (w & Ew)].
  set (c := (true, next)) in *. set (a := (false, S next)) in *.
  assert (Hdlt : snd d < next) by auto.
  assert (En : run [Conceal c d] e = Some (upd V e c w)).
  { rewrite run_cons. cbn [Generic_Spec.eval results secret c fst]. rewrite Pd. cbn [andb Generic_Spec.vals]. rewrite Ew. cbn [Generic_Spec.bind]. reflexivity. }
  assert (Hen : forall v, snd v < next -> upd V e c w v = e v).
  { intros v Hv. unfold upd. rewrite veqb_false; auto. intros ->. cbn in Hv. lia. }
  assert (Hec : upd V e c w c = Some w) by (unfold upd; rewrite veqb_refl; auto).
  set (R := fun u u' => (u' = u \/ (u = d /\ u' = a)) /\ snd u < next).
  assert (Ht : typed R).
  { intros u u' ([-> | (-> & ->)] & _); auto. unfold public in Pd. cbn. destruct (fst d); auto; discriminate Pd. }
  assert (Hlt : forall v, In v args \/ In v (flat_map defs body) \/ In v outs -> snd v < next) by (intros; apply Hun; auto).
  assert (Hg : good R (flat_map defs body)).
  { intros u u' v ([-> | (-> & ->)] & _) Hv Hor; auto. exfalso. destruct Hor as [<- | <-]; [tauto|]. assert (snd a < next) by auto. cbn in *. lia. }
  assert (Hlook : forall v, look [(d, a)] v = v \/ v = d /\ look [(d, a)] v = a).
  { intro v. destruct (val_dec v d) as [-> | N].
    - right. split; auto. unfold look. cbn [find fst]. rewrite veqb_refl; auto.
    - left. apply look_notin. cbn. intuition. }
  assert (Nargs : NoDup (args ++ [a])).
  { apply NoDup_app_iff. repeat split; auto; [repeat constructor; auto|]. intros v Hv [<- | []]. assert (snd a < next) by auto. cbn in *. lia. }
  destruct (generic_intro V sem trips index truth (fun ea' eb' => sim V R eb eb')
              (ins ++ [c]) (args ++ [a]) (map (subst_dest insert [(d, a)]) body) ys outs (upd V e c w)) as (e2 & ea2 & eb2 & E2 & _ & Hs2 & Hout2 & Hf2).
  { auto. }
  { auto. }
  { rewrite forallb_app, Pa. auto. }
  { auto. }
  { rewrite !app_length. cbn; lia. }
  { auto. }
  { intros x Hx. apply in_app_iff in Hx. destruct Hx as [Hx|[<- | []]]; [rewrite Hen; auto | congruence]. }
  { intros ea2 Hea2 Hfa2.
    assert (Hs0 : sim V R ea ea2).
    { assert (Hsame : forall u, snd u < next -> ea u <> None -> ea2 u = ea u).
      { intros u Hu Hb. destruct (in_dec val_dec u args) as [Hi|Hn].
        - destruct (In_combine_snd ins args u Li Hi) as (x & Hx). rewrite (Hea _ _ Hx). pose proof (in_combine_l _ _ _ _ Hx) as Hx'. rewrite (Hea2 x u); [apply Hen; auto|].
          rewrite combine_app by auto. apply in_or_app; auto.
        - rewrite Hfa by auto. rewrite Hfa2; [apply Hen; auto|]. rewrite in_app_iff. intros [?|[<- | []]]; auto. cbn in Hu. lia. }
      intros u u' w' ([-> | (-> & ->)] & Hu) Hw.
      - rewrite Hsame; auto. congruence.
      - rewrite Hfa in Hw by tauto. rewrite (Hea2 c a); [congruence|]. rewrite combine_app by auto. apply in_or_app. right; cbn; auto. }
    destruct (run_sim V sem trips index truth body R (map (subst_dest insert [(d, a)]) body) ea ea2 eb Ht Hg Hs0) as (eb2 & Eb2 & Hs2); auto.
    { apply substs_dest_sub; intros v Hv; split; auto. }
    exists eb2. split; auto. split; auto. intros y Hy. destruct (eb y) as [w'|] eqn:Ey; [|destruct (Hyb _ Hy Ey)].
    rewrite (Hs2 y y w'); [congruence | split; auto | auto]. }
  constructor.
  - lia.
  - cbn [flat_map defs]. rewrite app_nil_r, defs_substs_dest. cbn [app]. rewrite NoDup_cons_iff, !NoDup_app_iff. split.
    + rewrite !in_app_iff. intro H. assert (H' : snd c < next \/ c = a) by (destruct H as [[H|[<- | []]]|[H|H]]; auto). destruct H' as [H'|H']; [cbn in H'; lia | discriminate H'].
    + repeat split; auto.
      * repeat constructor; auto.
      * intros v Hv [<- | []]. assert (snd a < next) by auto. cbn in *. lia.
      * intros v Hv H. rewrite !in_app_iff in *. destruct Hv as [Hv|[<- | []]].
        -- destruct H as [H|H]; [apply (Dab v); auto | apply (Dao v); auto].
        -- assert (snd a < next) by (destruct H; auto). cbn in *. lia.
  - intros v Hv. cbn [flat_map defs] in *. rewrite !app_nil_r, defs_substs_dest in *. cbn [app In] in Hv. rewrite !in_app_iff in *.
    destruct Hv as [<- | [[Hv|[<- | []]]|Hv]]; try tauto; right; cbn; lia.
  - intros v Hv. cbn [flat_map uses app In] in Hv. rewrite !app_nil_r, !in_app_iff in Hv. destruct Hv as [<- | [[Hv|[<- | []]]|[Hv|Hv]]].
    + lia.
    + assert (snd v < next) by auto. lia.
    + cbn; lia.
    + apply uses_substs_dest in Hv. destruct Hv as [Hv|(u & Hu & ->)]; [assert (snd v < next) by auto; lia|].
      destruct (Hlook u) as [-> | (_ & ->)]; [assert (snd u < next) by auto; lia | cbn; lia].
    + assert (snd v < next) by auto. lia.
  - intros x y [].
  - intros e1' E1'. rewrite E1 in E1'. injection E1' as <-. exists e2. split.
    + change ([?x; ?y]) with ([x] ++ [y]). rewrite run_app, En. auto.
    + intros v w' _ Hw. change (look [] v) with v. destruct (in_dec val_dec v outs) as [Hi|Hn].
      * destruct (In_combine_snd ys outs v Lo Hi) as (y & Hy). rewrite (Ho _ _ Hy) in Hw. rewrite (Hout2 y v); auto.
        apply (Hs2 y y); auto. split; auto. apply Hus. right; right. eapply in_combine_l; eauto.
      * rewrite Hf2 by auto. rewrite Hfo in Hw by auto. rewrite Hen; auto. apply Hev. congruence.
Qed.

(** ** the operations of HoistPlaintextOps *)
Definition loose (o : op) (body : list op) : Prop :=
  forallb public (results o) = true /\ forall v, In v (uses o) -> ~ In v (flat_map results body).
Lemma subst_unchanged m o : (forall v, In v (uses o) -> look m v = v) -> uses (subst m o) = uses o.
Proof. clear sem trips index truth. intro H. rewrite uses_subst. apply map_eq_id. auto. Qed.
Lemma extract_before_shape next i ins args body ys outs o n g' next' :
  nth_error body i = Some o -> extract_before next i (Generic ins args body ys outs) = Some (n, g', next') ->
  exists ins' args' ys' mo b1 b2, g' = Generic ins' args' (map (subst mo) (b1 ++ b2)) ys' outs /\ body = b1 ++ o :: b2 /\ length b1 = i /\
    (forall v, ~ In v (results o) -> look mo v = v).
Proof.
  clear sem trips index truth. intros Ho X. cbn [extract_before] in X. rewrite Ho in X. destruct (nth_error_split _ _ Ho) as (b1 & b2 & Eb & Lb).
  assert (Er : firstn i body ++ skipn (S i) body = b1 ++ b2).
  { rewrite Eb, <- Lb. rewrite firstn_app, Nat.sub_diag, firstn_all. cbn [firstn]. rewrite app_nil_r. f_equal.
    rewrite skipn_app, (skipn_all2 b1) by lia. replace (S (length b1) - length b1) with 1 by lia. auto. }
  rewrite Er in X. injection X as _ <- _. do 6 eexists. split; [reflexivity|]. split; [exact Eb|]. split; [exact Lb|].
  intros v Hv. apply look_notin. rewrite map_fst_combine; auto. rewrite length_fresh; auto.
Qed.
Lemma extract_all_block is : forall removed next next' ins args body ys outs pre post l zs e ws,
  ssa next (pre ++ Generic ins args body ys outs :: post) zs e ->
  StronglySorted lt is -> (forall i, In i is -> removed <= i /\ exists o, nth_error body (i - removed) = Some o /\ loose o body) ->
  extract_all next is removed (Generic ins args body ys outs) = Some (l, next') ->
  block (pre ++ Generic ins args body ys outs :: post) zs e = Some ws ->
  block (pre ++ l ++ post) zs e = Some ws /\ ssa next' (pre ++ l ++ post) zs e.
Proof.
  induction is as [|i is IH]; intros removed next next' ins args body ys outs pre post l zs e ws Hssa Hsort Hall C E; cbn [extract_all] in C.
  - injection C as <- <-. auto.
  - destruct (extract_before next (i - removed) (Generic ins args body ys outs)) as [[[n g'] next1]|] eqn:X; [|discriminate C].
    destruct (extract_all next1 is (S removed) g') as [[l' next2]|] eqn:Y; [|discriminate C]. injection C as <- <-.
    destruct (Hall i (or_introl eq_refl)) as (Hi & o & Ho & Hpub & Hfree).
    change (Generic ins args body ys outs :: post) with ([Generic ins args body ys outs] ++ post) in Hssa, E.
    destruct (sound_block V sem trips index truth next next1 pre [Generic ins args body ys outs] [n; g'] [] post zs e ws Hssa) as [E1 Hssa1]; auto.
    { intros e0 e1 _ Hs0 Hr0. eapply extract_before_sound; eauto. }
    rewrite substs_nil, looks_nil in E1, Hssa1.
    destruct (extract_before_shape _ _ _ _ _ _ _ _ _ _ _ Ho X) as (ins' & args' & ys' & mo & b1 & b2 & -> & Eb & Lb & Hmo).
    inversion Hsort as [|? ? Hsort' Hlt]; subst. rewrite Forall_forall in Hlt.
    assert (Eq : pre ++ [n; Generic ins' args' (map (subst mo) (b1 ++ b2)) ys' outs] ++ post = (pre ++ [n]) ++ Generic ins' args' (map (subst mo) (b1 ++ b2)) ys' outs :: post)
      by (rewrite <- app_assoc; auto).
    rewrite Eq in E1, Hssa1. clear Eq.
    assert (Hall' : forall j, In j is -> S removed <= j /\ exists o', nth_error (map (subst mo) (b1 ++ b2)) (j - S removed) = Some o' /\ loose o' (map (subst mo) (b1 ++ b2))).
    { intros j Hj. pose proof (Hlt j Hj) as Hij. split; [lia|]. destruct (Hall j (or_intror Hj)) as (_ & o' & Ho' & Hp' & Hf').
      exists (subst mo o'). split.
      - rewrite nth_error_map. rewrite nth_error_app2 in Ho' by lia. replace (j - removed - length b1) with (S (j - S removed - length b1)) in Ho' by lia. cbn [nth_error] in Ho'.
        rewrite nth_error_app2 by lia. rewrite Ho'. auto.
      - assert (Hin : forall v, In v (flat_map results (b1 ++ b2)) -> In v (flat_map results (b1 ++ o :: b2))).
        { intro v. rewrite !flat_map_app, !in_app_iff. cbn [flat_map]. rewrite in_app_iff. tauto. }
        split; [rewrite results_subst; auto|]. intros v Hv. rewrite results_substs. rewrite subst_unchanged in Hv.
        + intro H. apply (Hf' v Hv). auto.
        + intros u Hu. apply Hmo. intro H. apply (Hf' u Hu). rewrite flat_map_app, in_app_iff. cbn [flat_map]. rewrite in_app_iff. auto. }
    destruct (IH (S removed) next1 next2 ins' args' _ ys' outs (pre ++ [n]) post l' zs e ws Hssa1 Hsort' Hall' Y E1) as [E2 Hssa2].
    rewrite <- app_assoc in E2, Hssa2. auto.
Qed.
Lemma indices_where_spec {A} (p : A -> bool) l : forall i,
  StronglySorted lt (indices_where p i l) /\ forall j, In j (indices_where p i l) -> i <= j /\ exists x, nth_error l (j - i) = Some x /\ p x = true.
Proof.
  clear sem trips index truth. induction l as [|x l IH]; intro i; cbn [indices_where].
  - split; [constructor | intros ? []].
  - destruct (IH (S i)) as [IH1 IH2].
    assert (H : forall j, In j (indices_where p (S i) l) -> i <= j /\ exists x', nth_error (x :: l) (j - i) = Some x' /\ p x' = true).
    { intros j Hj. destruct (IH2 j Hj) as (Hle & x' & Hx & Hp). split; [lia|]. exists x'. replace (j - i) with (S (j - S i)) by lia. auto. }
    destruct (p x) eqn:Px; [|auto]. split.
    + constructor; auto. apply Forall_forall. intros j Hj. destruct (IH2 j Hj). lia.
    + intros j [<-|Hj]; auto. split; [lia|]. exists x. rewrite Nat.sub_diag. auto.
Qed.
Lemma index_where_spec {A} (p : A -> bool) l i : index_where p l = Some i -> exists x, nth_error l i = Some x /\ p x = true.
Proof.
  clear sem trips index truth. revert i; induction l as [|x l IH]; intros i; cbn [index_where]; [discriminate|].
  destruct (p x) eqn:Px; [intro E; injection E as <-; exists x; auto|]. destruct (index_where p l) as [j|]; [|discriminate]. intro E; injection E as <-. cbn; auto.
Qed.
Lemma other_results body o v : NoDup (flat_map defs body) -> In o body -> In v (defs o) -> ~ In v (results o) -> ~ In v (flat_map results body).
Proof.
  clear sem trips index truth. intros ND Hi Hv Hn H. destruct (in_split _ _ Hi) as (l1 & l2 & ->). rewrite flat_map_app in *. cbn [flat_map] in *.
  apply NoDup_app_iff in ND. destruct ND as (N1 & ND & D1). apply NoDup_app_iff in ND. destruct ND as (_ & _ & D2).
  rewrite !in_app_iff in H. destruct H as [H|[H|H]]; auto.
  - apply results_defs_all in H. apply (D1 v H). rewrite in_app_iff. auto.
  - apply results_defs_all in H. apply (D2 v Hv H).
Qed.
Lemma hoistable_loose eligible ins args body o :
  NoDup (flat_map defs body) -> (forall v, In v args -> ~ In v (flat_map defs body)) -> In o body ->
  forallb public (results o) = true -> (forall v, In v (uses o) -> ~ In v (results o)) ->
  can_hoist_plaintext eligible ins args body o = true -> loose o body.
Proof.
  clear sem trips index truth. intros ND Dab Hi Hpub Hown H. split; auto. intros v Hv. unfold can_hoist_plaintext in H. apply andb_true_iff in H. destruct H as [_ H].
  rewrite forallb_forall in H. specialize (H v (proj2 (walk_uses o v) Hv)). apply orb_true_iff in H. destruct H as [H|H].
  - destruct (mem_spec v (defs o)) as [Hd|]; [|discriminate H]. eapply other_results; eauto.
  - unfold hoistable_value in H. destruct (mem_spec v args) as [Ha|Ha].
    + intro H'. apply (Dab v Ha). apply results_defs_all; auto.
    + apply negb_true_iff in H. destruct (mem_spec v (flat_map defs body)) as [|Hn]; [discriminate H|]. intro H'. apply Hn. apply results_defs_all; auto.
Qed.
Lemma hoist_plaintext_block eligible next next' ins args body ys outs new m pre post zs e ws :
  ssa next (pre ++ Generic ins args body ys outs :: post) zs e ->
  (forall o, In o body -> eligible o = true -> forallb public (results o) = true) ->
  (forall o v, In o body -> In v (uses o) -> ~ In v (results o)) ->
  hoist_plaintext eligible next (Generic ins args body ys outs) = Some (new, m, next') ->
  block (pre ++ Generic ins args body ys outs :: post) zs e = Some ws ->
  block (pre ++ new ++ map (subst m) post) (map (look m) zs) e = Some ws /\ ssa next' (pre ++ new ++ map (subst m) post) (map (look m) zs) e.
Proof.
  intros Hssa Hpub Hown C E. cbn [hoist_plaintext] in C. destruct (length body <=? 1); [discriminate C|].
  destruct (indices_where_spec (can_hoist_plaintext eligible ins args body) body 0) as [Hs Hin].
  destruct (indices_where _ 0 body) as [|i is]; [discriminate C|].
  destruct (extract_all _ _ _ _) as [[l next1]|] eqn:X; [|discriminate C]. injection C as <- <- <-. rewrite substs_nil, looks_nil.
  refine (extract_all_block (i :: is) 0 next next1 ins args body ys outs pre post l zs e ws Hssa Hs _ X E).
  intros j Hj. destruct (Hin j Hj) as (Hle & o & Ho & Hc). split; auto. exists o. split; auto. pose proof (nth_error_In _ _ Ho) as Hio.
  destruct Hssa as (ND & _ & _ & _). rewrite flat_map_app in ND. cbn [flat_map defs] in ND. apply NoDup_app_iff in ND. destruct ND as (_ & ND & _).
  apply NoDup_app_iff in ND. destruct ND as (ND & _ & _). apply NoDup_app_iff in ND. destruct ND as (_ & ND & Da). apply NoDup_app_iff in ND. destruct ND as (ND & _ & _).
  apply (hoistable_loose eligible ins args); auto.
  - intros v Hv H. apply (Da v Hv). rewrite in_app_iff; auto.
  - apply Hpub; auto. unfold can_hoist_plaintext in Hc. destruct (eligible o); auto.
Qed.

(** ** the values concealed before *)
Lemma concealed_facts outer pre next l zs e e0 :
  ssa next (pre ++ l) zs e -> run pre e = Some e0 -> (forall x c, In (Conceal x c) outer -> e x <> None /\ e c = e x) ->
  forall x c, concealed (outer ++ pre) x = Some c -> e0 x <> None -> e0 c = e0 x.
Proof.
  intros Hssa E0 Hout x c C _. unfold concealed in C. destruct (find _ (outer ++ pre)) as [o|] eqn:F; [|discriminate C].
  apply find_some in F. destruct F as [Fi F]. destruct o as [|r c'| | | |]; try discriminate F. destruct (veqb_spec r x); [|discriminate F]. subst r. injection C as ->.
  apply in_app_iff in Fi. destruct Fi as [Fi|Fi].
  - destruct (Hout x c Fi) as [Hx Hc]. assert (G : forall v, e v <> None -> e0 v = e v).
    { intros v Hv. apply (run_frame _ _ _ _ _ _ _ _ _ E0). intro H. apply results_defs_all in H. destruct Hssa as (_ & Hu & _). apply Hv, Hu. rewrite flat_map_app, in_app_iff. auto. }
    rewrite !G; auto; congruence.
  - destruct (in_split _ _ Fi) as (l1 & l2 & ->). rewrite <- app_assoc in Hssa. cbn [app] in Hssa. rewrite run_app in E0. destruct (run l1 e) as [e1|] eqn:E1; [|discriminate E0].
    pose proof (ssa_split _ _ _ _ _ _ _ _ _ _ _ Hssa E1) as Hssa1. change (Conceal x c :: l2 ++ l) with ([Conceal x c] ++ l2 ++ l) in Hssa1.
    change (Conceal x c :: l2) with ([Conceal x c] ++ l2) in E0. rewrite run_app in E0. destruct (run [Conceal x c] e1) as [e2|] eqn:E2; [|discriminate E0].
    pose proof (ssa_split _ _ _ _ _ _ _ _ _ _ _ Hssa1 E2) as (_ & Hu & _).
    assert (H2 : e2 c = e2 x /\ e2 c <> None).
    { rewrite run_cons in E2. cbn [Generic_Spec.eval results] in E2. destruct (_ && _); [|discriminate E2]. cbn [Generic_Spec.vals] in E2.
      destruct (e1 c) as [w|] eqn:Ec; [|discriminate E2]. cbn [Generic_Spec.bind Generic_Spec.run] in E2. injection E2 as <-. unfold upd. rewrite veqb_refl.
      destruct (veqb c x); [split; congruence|]. rewrite Ec. split; congruence. }
    destruct H2 as [H2 H3]. assert (G : forall v, e2 v <> None -> e0 v = e2 v).
    { intros v Hv. apply (run_frame _ _ _ _ _ _ _ _ _ E0). intro H. apply results_defs_all in H. apply Hv, Hu. rewrite flat_map_app, in_app_iff. auto. }
    rewrite !G; auto; congruence.
Qed.

(** ** nested blocks *)
Lemma replace_op next pre o o' post zs e ws :
  ssa next (pre ++ o :: post) zs e -> results o' = results o ->
  (forall e0 us, ssa next [o] [] e0 -> eval o e0 = Some us -> eval o' e0 = Some us) ->
  block (pre ++ o :: post) zs e = Some ws -> block (pre ++ o' :: post) zs e = Some ws.
Proof.
  intros Hssa Hr Ho. unfold Generic_Spec.block. rewrite !run_app. destruct (run pre e) as [e0|] eqn:E0; auto. rewrite !run_cons.
  pose proof (ssa_split _ _ _ _ _ _ _ _ _ _ _ Hssa E0) as Hssa0. change (o :: post) with ([o] ++ post) in Hssa0. apply ssa_prefix in Hssa0.
  destruct (eval o e0) as [us|] eqn:Eo; [|discriminate]. rewrite (Ho e0 us); auto. rewrite Hr. auto.
Qed.
Lemma ssa_bind next rs ds body ys uw e e' :
  ssa next [] [] e -> NoDup (flat_map defs body) -> (forall v, In v (flat_map defs body) -> e v = None) ->
  (forall v, In v (rs ++ ds ++ flat_map defs body ++ flat_map uses body ++ ys) -> snd v < next) ->
  (forall v, In v rs -> ~ In v (flat_map defs body)) -> bind rs uw e = Some e' -> ssa next body ys e'.
Proof.
  clear sem trips index truth. intros (_ & _ & _ & Hb) ND Hd Hlt Hdis E. repeat split; auto.
  - intros v Hv. rewrite (bind_frame _ _ _ _ _ E); auto. intro H. apply (Hdis v H Hv).
  - intros v Hv. apply Hlt. rewrite !in_app_iff in *. tauto.
  - intros v Hv. destruct (in_dec val_dec v rs) as [Hi|Hn]; [apply Hlt; rewrite !in_app_iff; auto|]. apply Hb. rewrite (bind_frame _ _ _ _ _ E) in Hv; auto.
Qed.
Lemma nested_block next l l' ys ys' o o' pre post zs e ws :
  (forall e ws, ssa next l ys e -> block l ys e = Some ws -> block l' ys' e = Some ws) -> map fst ys' = map fst ys ->
  nested l ys l' ys' o o' -> ssa next (pre ++ o :: post) zs e ->
  block (pre ++ o :: post) zs e = Some ws -> block (pre ++ o' :: post) zs e = Some ws.
Proof.
  intros Hl Ht Hn Hssa. apply (replace_op next); auto; [inversion Hn; auto|]. clear Hssa e ws pre post zs.
  assert (Hpub : forallb public ys' = forallb public ys).
  { clear -Ht. revert ys' Ht; induction ys as [|y ys IH]; intros [|y' ys'] H; try discriminate H; auto. cbn [map forallb] in *. injection H as H1 H2.
    unfold public at 1 3. rewrite H1, (IH ys'); auto. }
  intros e us (ND & Hd & Hlt & Hb) E. assert (Hs0 : ssa next [] [] e) by (repeat split; auto; try (intros ? []); constructor).
  inversion Hn; subst; clear Hn; cbn [flat_map defs uses] in ND, Hd, Hlt; rewrite !app_nil_r in *.
  - rewrite eval_generic in *. rewrite Hpub. destruct (_ && _); auto. destruct (vals ins e) as [iw|]; auto. destruct (bind args iw e) as [ea|] eqn:Ea; auto. apply Hl; auto.
    apply NoDup_app_iff in ND. destruct ND as (_ & ND & D). apply NoDup_app_iff in ND. destruct ND as (ND & _ & _).
    apply (ssa_bind next args outs l ys iw e); auto.
    + intros v Hv. apply Hd. rewrite !in_app_iff; auto.
    + intros v Hv. apply Hlt. rewrite !in_app_iff in *. tauto.
    + intros v Hv H. apply (D v Hv). rewrite in_app_iff; auto.
  - rewrite eval_for in *. assert (St : same_types ys' iters = same_types ys iters) by (unfold same_types; rewrite Ht; auto). rewrite St.
    destruct (_ && _); auto. destruct (e c) as [n|]; auto. destruct (vals inits e) as [iw|]; auto. revert E. apply iterate_mono.
    intros i uw vw. destruct (bind (iv :: iters) (index i :: uw) e) as [ea|] eqn:Ea; auto. apply Hl.
    apply NoDup_cons_iff in ND. destruct ND as [Niv ND]. apply NoDup_app_iff in ND. destruct ND as (_ & ND & D). apply NoDup_app_iff in ND. destruct ND as (ND & _ & _).
    apply (ssa_bind next (iv :: iters) rs l ys (index i :: uw) e); auto.
    + intros v Hv. apply Hd. cbn [In]. rewrite !in_app_iff; auto.
    + intros v Hv. apply Hlt. cbn [In app] in *. rewrite !in_app_iff in *. cbn [In]. rewrite !in_app_iff. tauto.
    + intros v [<- | Hv] H; [apply Niv; rewrite !in_app_iff; auto | apply (D v Hv); rewrite in_app_iff; auto].
  - rewrite eval_if in *. assert (St : same_types ys' rs = same_types ys rs) by (unfold same_types; rewrite Ht; auto). rewrite St.
    destruct (_ && _); auto. destruct (e c) as [w|]; auto. destruct (truth w); auto. apply Hl; auto.
    apply NoDup_app_iff in ND. destruct ND as (ND & _ & _). repeat split; auto.
    + intros v Hv. apply Hd. rewrite !in_app_iff; auto.
    + intros v Hv. apply Hlt. cbn [In]. rewrite !in_app_iff in *. cbn [In]. rewrite !in_app_iff. tauto.
  - rewrite eval_if in *. assert (St : same_types ys' rs = same_types ys rs) by (unfold same_types; rewrite Ht; auto). rewrite St.
    destruct (_ && _); auto. destruct (e c) as [w|]; auto. destruct (truth w); auto. apply Hl; auto.
    apply NoDup_app_iff in ND. destruct ND as (_ & ND & _). apply NoDup_app_iff in ND. destruct ND as (ND & _ & _). repeat split; auto.
    + intros v Hv. apply Hd. rewrite !in_app_iff; auto.
    + intros v Hv. apply Hlt. cbn [In]. rewrite !in_app_iff in *. cbn [In]. rewrite !in_app_iff. tauto.
Qed.
End Patterns.
