(** The rewrites of secret.generic are sound replacements. *)
From Coq Require Import List Bool Arith Lia.
From Verif Require Import Generic_Spec Generic_Model Generic_Proofs Generic2_Proofs.
Import ListNotations.
Set Default Proof Using "Type".

Lemma filter_combine_length {A B} (p : A * B -> bool) l : length (map fst (filter p l)) = length (map snd (filter p l)).
Proof. rewrite !map_length; auto. Qed.
Lemma combine_map_fst_snd {A B} (l : list (A * B)) : combine (map fst l) (map snd l) = l.
Proof. induction l as [|[a b] l IH]; cbn; congruence. Qed.
Lemma In_combine_nth {A B} (a : list A) (b : list B) x y : In (x, y) (combine a b) <-> exists i, nth_error a i = Some x /\ nth_error b i = Some y.
Proof.
  revert b; induction a as [|a0 a IH]; intros [|b0 b]; cbn [combine In].
  - split; [tauto | intros ([|i] & H & _); discriminate H].
  - split; [tauto | intros ([|i] & H & _); discriminate H].
  - split; [tauto | intros ([|i] & _ & H); discriminate H].
  - rewrite IH. split.
    + intros [E | (i & ? & ?)]; [injection E as -> ->; exists 0; auto | exists (S i); auto].
    + intros ([|i] & H1 & H2); cbn [nth_error] in *; [left; congruence | right; eauto].
Qed.
Lemma In_combine_fst {A B} (a : list A) (b : list B) x : length a = length b -> In x a -> exists y, In (x, y) (combine a b).
Proof.
  intros H Hx. apply In_nth_error in Hx. destruct Hx as (i & Hi). destruct (nth_error_same_length a b i x H Hi) as (y & Hy).
  exists y. apply In_combine_nth. eauto.
Qed.
Lemma In_combine_snd {A B} (a : list A) (b : list B) y : length a = length b -> In y b -> exists x, In (x, y) (combine a b).
Proof.
  intros H Hy. apply In_nth_error in Hy. destruct Hy as (i & Hi). destruct (nth_error_same_length b a i y (eq_sym H) Hi) as (x & Hx).
  exists x. apply In_combine_nth. eauto.
Qed.
Lemma look_combine a b x y : NoDup a -> In (x, y) (combine a b) -> look (combine a b) x = y.
Proof. intros ND H. apply In_combine_nth in H. destruct H as (i & Hx & Hy). eapply look_combine_nth; eauto. Qed.
Lemma In_combine_swap {A B} (a : list A) (b : list B) x y : In (x, y) (combine a b) <-> In (y, x) (combine b a).
Proof. rewrite !In_combine_nth. split; intros (i & ? & ?); eauto. Qed.
Lemma map_eq_id {A} (f : A -> A) l : (forall x, In x l -> f x = x) -> map f l = l.
Proof. intro H. rewrite <- (map_id l) at 2. apply map_ext_in. auto. Qed.
Lemma as_secret_id l : forallb secret l = true -> map as_secret l = l.
Proof.
  intro H. apply map_eq_id. intros [s n] Hx. rewrite forallb_forall in H. specialize (H _ Hx). cbn in H. subst; auto.
Qed.
Lemma forallb_In {A} (p : A -> bool) l x : forallb p l = true -> In x l -> p x = true.
Proof. rewrite forallb_forall; auto. Qed.

Section Patterns.
Variable V : Type.
Variable sem : nat -> list V -> option (list V).
Variable trips : V -> nat.
Variable index : nat -> V.
Variable truth : V -> bool.
Notation eval := (eval V sem trips index truth).
Notation run := (run V sem trips index truth).
Notation block := (block V sem trips index truth).
Notation env := (env V).
Notation bind := (bind V).
Notation vals := (vals V).
Notation ssa := (ssa V).
Notation sound := (sound V sem trips index truth).

(** * Running a generic *)
Lemma bind_combine ins args iw e ea x a :
  NoDup args -> vals ins e = Some iw -> bind args iw e = Some ea -> In (x, a) (combine ins args) -> ea a = e x.
Proof.
  intros ND Ev Eb H. apply In_combine_nth in H. destruct H as (i & Hx & Ha).
  rewrite (bind_nth _ _ _ _ _ _ ND Eb Ha). symmetry. eapply vals_nth; eauto.
Qed.
Lemma generic_inv ins args body ys outs e e1 :
  NoDup args -> NoDup outs -> run [Generic ins args body ys outs] e = Some e1 ->
  exists ea eb,
    forallb public args = true /\ forallb public ys = true /\ length ins = length args /\ length ys = length outs /\
    (forall x, In x ins -> e x <> None) /\ (forall x a, In (x, a) (combine ins args) -> ea a = e x) /\
    (forall v, ~ In v args -> ea v = e v) /\ run body ea = Some eb /\ (forall y, In y ys -> eb y <> None) /\
    (forall y r, In (y, r) (combine ys outs) -> e1 r = eb y) /\ (forall v, ~ In v outs -> e1 v = e v).
Proof.
  intros Na No. rewrite run_cons, eval_generic. cbn [results]. destruct (forallb public args) eqn:Pa; [|discriminate]. destruct (forallb public ys) eqn:Py; [|discriminate].
  cbn [andb]. destruct (vals ins e) as [iw|] eqn:Ei; try discriminate. destruct (bind args iw e) as [ea|] eqn:Ea; try discriminate.
  unfold Generic_Spec.block. destruct (run body ea) as [eb|] eqn:Eb; try discriminate. destruct (vals ys eb) as [ow|] eqn:Ey; try discriminate.
  destruct (bind outs ow e) as [e2|] eqn:E2; try discriminate. cbn [Generic_Spec.run]. intro E; injection E as ->.
  exists ea, eb. repeat split; auto.
  - rewrite <- (vals_length _ _ _ Ei). symmetry. eapply bind_length; eauto.
  - rewrite <- (vals_length _ _ _ Ey). symmetry. eapply bind_length; eauto.
  - intros x Hx. apply (proj1 (Forall_forall _ _) (proj1 (vals_some ins e) (ex_intro _ _ Ei))); auto.
  - intros x a H. apply (bind_combine _ _ _ _ _ _ _ Na Ei Ea H).
  - intros v Hv. eapply bind_frame; eauto.
  - intros x Hx. apply (proj1 (Forall_forall _ _) (proj1 (vals_some ys eb) (ex_intro _ _ Ey))); auto.
  - intros y r H. apply In_combine_nth in H. destruct H as (i & Hy & Hr). rewrite (bind_nth _ _ _ _ _ _ No E2 Hr). symmetry. eapply vals_nth; eauto.
  - intros v Hv. eapply bind_frame; eauto.
Qed.
Lemma generic_intro (Q : env -> env -> Prop) ins args body ys outs e :
  NoDup args -> NoDup outs -> forallb public args = true -> forallb public ys = true ->
  length ins = length args -> length ys = length outs -> (forall x, In x ins -> e x <> None) ->
  (forall ea, (forall x a, In (x, a) (combine ins args) -> ea a = e x) -> (forall v, ~ In v args -> ea v = e v) ->
     exists eb, run body ea = Some eb /\ (forall y, In y ys -> eb y <> None) /\ Q ea eb) ->
  exists e1 ea eb, run [Generic ins args body ys outs] e = Some e1 /\ run body ea = Some eb /\ Q ea eb /\
    (forall y r, In (y, r) (combine ys outs) -> e1 r = eb y) /\ (forall v, ~ In v outs -> e1 v = e v).
Proof.
  intros Na No Pa Py Li Lo Hi Hb. rewrite run_cons, eval_generic. cbn [results]. rewrite Pa, Py. cbn [andb].
  destruct (proj2 (vals_some ins e)) as (iw & Ei); [apply Forall_forall; auto|]. rewrite Ei.
  destruct (proj1 (bind_some args iw e)) as (ea & Ea); [rewrite (vals_length _ _ _ Ei); auto|]. rewrite Ea.
  destruct (Hb ea) as (eb & Eb & Hy & HQ); [intros x a H; apply (bind_combine _ _ _ _ _ _ _ Na Ei Ea H) | intros; eapply bind_frame; eauto |].
  unfold Generic_Spec.block. rewrite Eb. destruct (proj2 (vals_some ys eb)) as (ow & Ey); [apply Forall_forall; auto|]. rewrite Ey.
  destruct (proj1 (bind_some outs ow e)) as (e1 & E1); [rewrite (vals_length _ _ _ Ey); auto|]. rewrite E1.
  exists e1, ea, eb. cbn [Generic_Spec.run]. repeat split; auto.
  - intros y r H. apply In_combine_nth in H. destruct H as (i & H1 & H2). rewrite (bind_nth _ _ _ _ _ _ No E1 H2). symmetry. eapply vals_nth; eauto.
  - intros v Hv. eapply bind_frame; eauto.
Qed.
(** what [ssa] says of a generic *)
Lemma generic_ssa next ins args body ys outs e :
  ssa next [Generic ins args body ys outs] [] e ->
  NoDup args /\ NoDup (flat_map defs body) /\ NoDup outs /\
  (forall v, In v args -> ~ In v (flat_map defs body)) /\ (forall v, In v args -> ~ In v outs) /\
  (forall v, In v (flat_map defs body) -> ~ In v outs) /\
  (forall v, In v args \/ In v (flat_map defs body) \/ In v outs -> e v = None /\ snd v < next) /\
  (forall v, In v ins \/ In v (flat_map uses body) \/ In v ys -> snd v < next) /\
  (forall v, e v <> None -> snd v < next).
Proof.
  clear sem trips index truth.
  intros (ND & Hd & Hu & He). cbn [flat_map defs uses] in *. rewrite !app_nil_r in *.
  apply NoDup_app_iff in ND. destruct ND as (Na & N2 & Ha). apply NoDup_app_iff in N2. destruct N2 as (Nb & No & Hb).
  repeat split; auto.
  - intros v Hv H. apply (Ha v Hv), in_or_app; auto.
  - intros v Hv H. apply (Ha v Hv), in_or_app; auto.
  - apply Hd. rewrite !in_app_iff. tauto.
  - apply Hu. rewrite !in_app_iff. tauto.
  - intros v Hv. apply Hu. rewrite !in_app_iff. tauto.
Qed.
Ltac gen_facts H :=
  destruct (generic_ssa _ _ _ _ _ _ _ H) as (Na & Nb & No & Dab & Dao & Dbo & Hun & Hus & Hev).
Ltac gen_inv E :=
  let ea := fresh "ea" in let eb := fresh "eb" in
  match goal with
  | Na : NoDup ?a, No : NoDup ?o |- _ =>
      destruct (generic_inv _ a _ _ o _ _ Na No E) as (ea & eb & Pa & Py & Li & Lo & Hin & Hea & Hfa & Hrb & Hyb & Ho & Hfo)
  end.
Lemma unbound_body body ea eb v : run body ea = Some eb -> ~ In v (flat_map results body) -> eb v = ea v.
Proof. intros; eapply run_frame; eauto. Qed.

Lemma bound_next next old e e1 v w : ssa next old [] e -> run old e = Some e1 -> e1 v = Some w -> snd v < next.
Proof.
  intros Hs E H. rewrite <- (app_nil_r old) in Hs. destruct (ssa_split _ _ _ _ _ _ _ _ _ _ _ Hs E) as (_ & _ & _ & Hb). apply Hb. congruence.
Qed.

(** * CollapseSecretlessGeneric *)
Lemma run_conceals (ps : list (val * val)) e :
  (forall r x, In (r, x) ps -> secret r = true /\ public x = true /\ e x <> None /\ ~ In x (map fst ps)) -> NoDup (map fst ps) ->
  exists e', run (map (fun p => Conceal (fst p) (snd p)) ps) e = Some e' /\
    (forall r x, In (r, x) ps -> e' r = e x) /\ (forall v, ~ In v (map fst ps) -> e' v = e v).
Proof.
  revert e; induction ps as [|[r x] ps IH]; intros e H ND; cbn [map fst snd].
  - exists e. cbn. repeat split; tauto.
  - cbn [map fst] in ND. apply NoDup_cons_iff in ND. destruct ND as [Nr ND].
    destruct (H r x (or_introl eq_refl)) as (Hr & Hx & He & Hn). rewrite run_cons. cbn [Generic_Spec.eval results]. rewrite Hr, Hx. cbn [andb Generic_Spec.vals].
    destruct (e x) as [w|] eqn:Ex; [|congruence]. cbn [Generic_Spec.bind].
    destruct (IH (upd V e r w)) as (e' & E' & H1 & H2); auto.
    { intros r' x' Hi. destruct (H r' x' (or_intror Hi)) as (? & ? & H3 & H4). cbn [map fst In] in H4. repeat split; auto.
      unfold upd. rewrite veqb_false; auto. }
    exists e'. split; auto. split.
    + intros r' x' [E | Hi].
      * injection E as <- <-. rewrite H2 by auto. unfold upd. rewrite veqb_refl; auto.
      * rewrite (H1 _ _ Hi). unfold upd. rewrite veqb_false; auto. intros ->. destruct (H r' r (or_intror Hi)) as (_ & _ & _ & H4). apply H4; left; auto.
    + intros v Hv. cbn [In] in Hv. rewrite H2 by tauto. unfold upd. rewrite veqb_false; auto.
Qed.
Lemma uses_conceals (ps : list (val * val)) : flat_map uses (map (fun p => Conceal (fst p) (snd p)) ps) = map snd ps.
Proof. induction ps as [|p ps IH]; cbn; congruence. Qed.
Lemma defs_conceals (ps : list (val * val)) : flat_map defs (map (fun p => Conceal (fst p) (snd p)) ps) = map fst ps.
Proof. induction ps as [|p ps IH]; cbn; congruence. Qed.

Lemma collapse_sound U alloc next next' g new m e :
  ssa next [g] [] e -> forallb secret (results g) = true -> collapse alloc next g = Some (new, m, next') ->
  forall e1, run [g] e = Some e1 -> sound U next next' [g] new m e.
Proof.
  intros Hssa Hsec C e1 E1. destruct g as [| | |ins args body ys outs| |]; try discriminate C. cbn [collapse] in C. cbn [results] in Hsec.
  destruct (existsb secret ins) eqn:Hp; [discriminate C|]. destruct (existsb _ body); [discriminate C|]. cbn [orb] in C. injection C as <- <- <-.
  gen_facts Hssa. gen_inv E1.
  set (m0 := combine args ins) in *. set (rs := fresh true next (length ys)) in *.
  assert (Eps : map (fun p => Conceal (fst p) (look m0 (snd p))) (combine rs ys) = map (fun p => Conceal (fst p) (snd p)) (combine rs (map (look m0) ys))).
  { unfold rs. generalize (fresh true next (length ys)). clear. induction ys as [|y ys IH]; intros [|r rs]; cbn; auto. f_equal; auto. }
  rewrite Eps.
  assert (Lr : length rs = length ys) by apply length_fresh.
  assert (Mf : map fst (combine rs (map (look m0) ys)) = rs) by (apply map_fst_combine; rewrite map_length; auto).
  assert (Ms : map snd (combine rs (map (look m0) ys)) = map (look m0) ys) by (apply map_snd_combine; rewrite map_length; auto).
  assert (Hlt : forall v, snd v < next -> snd (look m0 v) < next).
  { intros v Hv. apply look_bound; auto. intros a b H. apply Hus. left. eapply in_combine_r; eauto. }
  assert (Hr : forall v, In v rs -> fst v = true /\ next <= snd v < next + length ys) by (intros v; apply In_fresh).
  set (R := fun v v' => v' = look m0 v /\ snd v < next).
  assert (Hpub : forall x, In x ins -> fst x = false).
  { intros x Hx. destruct (fst x) eqn:Ex; auto. assert (existsb secret ins = true) by (apply existsb_exists; exists x; auto). congruence. }
  assert (Ht : typed R).
  { intros v v' (-> & _). destruct (look_cases m0 v) as [-> | H]; auto. rewrite (Hpub (look m0 v)) by (eapply in_combine_r; eauto).
    apply in_combine_l in H. apply (forallb_In _ _ _ Pa) in H. unfold public in H. destruct (fst v); auto. }
  assert (Hg : good R (flat_map defs body)).
  { intros v v' d (-> & _) Hd Hor. destruct (look_cases m0 v) as [-> | H]; auto. exfalso. destruct Hor as [-> | Hor].
    - apply in_combine_l in H. eapply Dab; eauto.
    - apply in_combine_r in H. rewrite Hor in H. apply Hin in H. destruct (Hun d) as [H' _]; auto. }
  assert (Hs : sim V R ea e).
  { intros v v' w (-> & _) Hw. destruct (in_dec val_dec v args) as [Hi|Hn].
    - destruct (In_combine_snd ins args v Li Hi) as (x & Hx). rewrite <- Hw, (Hea _ _ Hx).
      rewrite In_combine_swap in Hx. unfold m0. rewrite (look_combine _ _ _ _ Na Hx); auto.
    - unfold m0. rewrite look_notin; [rewrite <- Hfa; auto |]. rewrite map_fst_combine; auto. }
  destruct (run_sim V sem trips index truth body R (map (subst m0) body) ea e eb Ht Hg Hs) as (eb' & Eb' & Hs'); auto.
  { apply substs_sub. intros v Hv. split; auto. }
  destruct (run_conceals (combine rs (map (look m0) ys)) eb') as (e2 & E2 & Hc & Hf).
  { intros r x H. rewrite Mf. pose proof (in_combine_l _ _ _ _ H) as H1. pose proof (in_combine_r _ _ _ _ H) as H2.
    apply in_map_iff in H2. destruct H2 as (y & <- & Hy). assert (Hyl : snd y < next) by auto.
    split; [apply Hr; auto|]. split; [|split].
    - unfold public. rewrite <- (Ht y (look m0 y)) by (split; auto). apply (forallb_In _ _ _ Py Hy).
    - destruct (eb y) as [w|] eqn:Ey; [|destruct (Hyb y Hy Ey)]. rewrite (Hs' y (look m0 y) w); [congruence | split; auto | auto].
    - intro H2. apply Hr in H2. specialize (Hlt y Hyl). lia. }
  { rewrite Mf. apply NoDup_fresh. }
  constructor.
  - lia.
  - rewrite flat_map_app, defs_substs, defs_conceals, Mf. apply NoDup_app_iff. repeat split; auto; [apply NoDup_fresh|].
    intros x Hx H. apply Hr in H. destruct (Hun x) as [_ H']; auto. lia.
  - intros d Hd. rewrite flat_map_app, defs_substs, defs_conceals, Mf, in_app_iff in Hd. cbn [flat_map defs]. rewrite !in_app_iff.
    destruct Hd as [H|H]; [tauto | right; apply Hr; auto].
  - intros v Hv. rewrite flat_map_app, uses_substs, uses_conceals, Ms, in_app_iff, !in_map_iff in Hv.
    apply Nat.lt_le_trans with next; [|lia]. destruct Hv as [(u & <- & H)|(u & <- & H)]; apply Hlt, Hus; auto.
  - intros a b H. pose proof (in_combine_l _ _ _ _ H) as H1. pose proof (in_combine_r _ _ _ _ H) as H2. apply Hr in H2.
    split; [|split; [|split; [lia | left; lia]]].
    + rewrite (proj1 H2). apply (forallb_In _ _ _ Hsec H1).
    + cbn [flat_map results]. rewrite app_nil_r; auto.
  - intros e1' E1'. rewrite E1 in E1'. injection E1' as <-. exists e2. rewrite run_app, Eb'. split; auto.
    intros v w _ Hw. assert (Hv : snd v < next) by (eapply bound_next; eauto). destruct (in_dec val_dec v outs) as [Hi|Hn].
    + apply In_nth_error in Hi. destruct Hi as (i & Hi).
      destruct (nth_error_same_length outs ys i v (eq_sym Lo) Hi) as (y & Hy). destruct (nth_error_same_length ys rs i y (eq_sym Lr) Hy) as (r & Hr').
      rewrite (look_combine_nth outs rs i v r No Hi Hr').
      rewrite (Hc r (look m0 y)).
      * rewrite (Ho y v) in Hw by (apply In_combine_nth; eauto). apply (Hs' y (look m0 y)); auto. split; auto.
        apply Hus. apply nth_error_In in Hy. auto.
      * apply In_combine_nth. exists i. split; auto. rewrite nth_error_map, Hy; auto.
    + rewrite look_notin by (rewrite map_fst_combine; [auto | congruence]).
      rewrite Hfo in Hw by auto. rewrite Hf by (rewrite Mf; intro H; apply Hr in H; lia).
      rewrite (run_frame _ _ _ _ _ _ _ _ _ Eb'); auto. rewrite results_substs. intro H. apply results_defs_all in H.
      destruct (Hun v) as [H' _]; auto. congruence.
Qed.

(** * Rewrites of the generic itself *)
Definition args_eq (ins args : list val) (e ea : env) : Prop :=
  (forall x a, In (x, a) (combine ins args) -> ea a = e x) /\ (forall v, ~ In v args -> ea v = e v).
Lemma regen (U : val -> Prop) next next' ins args body ys outs ins' args' body' ys' outs' m R e e1 :
  ssa next [Generic ins args body ys outs] [] e -> run [Generic ins args body ys outs] e = Some e1 ->
  next <= next' -> NoDup args' -> (forall a, In a args' -> In a args \/ next <= snd a < next') ->
  flat_map defs body' = flat_map defs body -> NoDup outs' -> (forall r, In r outs' -> In r outs) ->
  length ins' = length args' -> length ys' = length outs' -> forallb public args' = true -> forallb public ys' = true ->
  (forall v, In v ins' \/ In v (flat_map uses body') \/ In v ys' -> snd v < next') ->
  (forall a b, In (a, b) m -> fst a = fst b /\ In a outs /\ snd b < next' /\ (next <= snd b \/ In b outs \/ e b <> None)) ->
  (forall x, In x ins' -> e x <> None) ->
  typed R -> good R (flat_map defs body) -> subs R body body' ->
  (forall ea ea', args_eq ins args e ea -> args_eq ins' args' e ea' -> sim V R ea ea') ->
  (forall y', In y' ys' -> exists y, In y ys /\ R y y') ->
  (forall y v, U v -> In (y, v) (combine ys outs) ->
     (exists y', In (y', look m v) (combine ys' outs') /\ R y y') \/ In (look m v, y) (combine ins args)) ->
  sound U next next' [Generic ins args body ys outs] [Generic ins' args' body' ys' outs'] m e.
Proof.
  intros Hssa E1 Hn Na' Ha' Hdb No' Ho' Li' Lo' Pa' Py' Hu' Hm Hi' Ht Hg Hsub Hsim Hy' Hout.
  gen_facts Hssa. gen_inv E1.
  constructor; auto.
  - cbn [flat_map defs]. rewrite app_nil_r, Hdb. apply NoDup_app_iff. split; auto. split.
    + apply NoDup_app_iff. repeat split; auto. intros x Hx H. eapply Dbo; eauto.
    + intros a Ha. rewrite in_app_iff. destruct (Ha' a Ha) as [H|H].
      * intros [H1|H1]; [eapply Dab; eauto | eapply Dao; eauto].
      * intros [H1|H1]; (assert (snd a < next) by (apply Hun; auto)); lia.
  - intros d. cbn [flat_map defs]. rewrite !app_nil_r, Hdb, !in_app_iff. intros [H|[H|H]]; auto. destruct (Ha' d H); auto.
  - intros v. cbn [flat_map uses]. rewrite !app_nil_r, !in_app_iff. auto.
  - intros a b H. cbn [flat_map results]. rewrite !app_nil_r. auto.
  - intros e1' E1'. rewrite E1 in E1'. injection E1' as <-.
    destruct (generic_intro (fun ea' eb' => args_eq ins' args' e ea' /\ sim V R eb eb') ins' args' body' ys' outs' e Na' No' Pa' Py' Li' Lo' Hi') as (e2 & ea' & eb' & E2 & _ & (_ & Hs) & H1 & H2).
    { intros ea' Hea' Hfa'. destruct (run_sim V sem trips index truth body R body' ea ea' eb Ht Hg) as (eb' & Eb' & Hs); auto.
      - apply Hsim; split; auto.
      - exists eb'. repeat split; auto. intros y' Hy. destruct (Hy' y' Hy) as (y & Hyy & HR). destruct (eb y) as [w|] eqn:Ey; [|destruct (Hyb y Hyy Ey)].
        rewrite (Hs y y' w HR Ey). congruence. }
    exists e2. split; auto. intros v w HU Hw. destruct (in_dec val_dec v outs) as [Hi|Hn'].
    + destruct (In_combine_snd ys outs v Lo Hi) as (y & Hy). rewrite (Ho y v Hy) in Hw. destruct (Hout y v HU Hy) as [(y' & Hyy & HR)|Hx].
      * rewrite (H1 _ _ Hyy). eapply Hs; eauto.
      * pose proof (in_combine_l _ _ _ _ Hx) as Hx1. pose proof (in_combine_r _ _ _ _ Hx) as Hx2.
        rewrite H2; [rewrite <- (Hea _ _ Hx), <- Hw; symmetry; eapply run_frame; eauto |].
        -- intro H. apply results_defs_all in H. eapply Dab; eauto.
        -- intro H. apply Ho' in H. apply (Hin _ Hx1). apply Hun; auto.
    + rewrite look_notin; [rewrite H2; [rewrite <- Hfo; auto |] |].
      * intro H; auto.
      * intro H. apply in_map_iff in H. destruct H as ([a b] & <- & H). apply Hm in H. tauto.
Qed.
(** values that are not touched *)
Definition same (P : val -> Prop) : val -> val -> Prop := fun v v' => v' = v /\ P v.
Lemma same_typed P : typed (same P).
Proof. clear sem trips index truth. intros v v' (-> & _); auto. Qed.
Lemma same_good P D : good (same P) D.
Proof. clear sem trips index truth. intros v v' d (-> & _) _ _; auto. Qed.
Lemma same_subs (P : val -> Prop) l : (forall v, In v (flat_map uses l) -> P v) -> subs (same P) l l.
Proof. clear sem trips index truth. intro H. apply subs_refl. intros v Hv; split; auto. Qed.
Lemma In_keep ys outs p y r : forallb secret outs = true ->
  In (y, r) (combine (fst (keep_yields p ys outs)) (snd (keep_yields p ys outs))) <-> In (y, r) (combine ys outs) /\ p (y, r) = true.
Proof.
  clear sem trips index truth.
  intro Hs. unfold keep_yields. cbn [fst snd].
  replace (map (fun q => as_secret (snd q)) (filter p (combine ys outs))) with (map snd (filter p (combine ys outs))).
  - rewrite combine_map_fst_snd, filter_In. tauto.
  - apply map_ext_in. intros [y' r'] H. apply filter_In in H. destruct H as [H _]. apply in_combine_r in H. apply (forallb_In _ _ _ Hs) in H.
    destruct r' as [s n]; cbn in *; subst; auto.
Qed.
Lemma keep_facts ys outs p ys' outs' :
  keep_yields p ys outs = (ys', outs') -> forallb secret outs = true -> NoDup outs ->
  length ys' = length outs' /\ NoDup outs' /\ (forall r, In r outs' -> In r outs) /\ (forall y, In y ys' -> In y ys) /\
  (forall y r, In (y, r) (combine ys' outs') <-> In (y, r) (combine ys outs) /\ p (y, r) = true).
Proof.
  clear sem trips index truth.
  intros E Hs ND. pose proof (fun y r => In_keep ys outs p y r Hs) as H. rewrite E in H. cbn [fst snd] in H.
  assert (L : length ys' = length outs') by (unfold keep_yields in E; injection E as <- <-; rewrite !map_length; auto).
  split; auto. split; [|split; [|split; auto]].
  - unfold keep_yields in E. injection E as _ <-.
    assert (G : map (fun q => as_secret (snd q)) (filter p (combine ys outs)) = map snd (filter p (combine ys outs))).
    { apply map_ext_in. intros [y' r'] Hi. apply filter_In in Hi. destruct Hi as [Hi _]. apply in_combine_r in Hi. apply (forallb_In _ _ _ Hs) in Hi.
      destruct r' as [s n]; cbn in *; subst; auto. }
    rewrite G. clear -ND. revert outs ND. induction ys as [|y ys IH]; intros [|r outs] ND; cbn [combine filter map]; try constructor.
    apply NoDup_cons_iff in ND. destruct ND as [Nr ND]. destruct (p (y, r)); auto. cbn [map snd]. constructor; auto.
    intro H. apply in_map_iff in H. destruct H as ([y' r'] & E & H). cbn in E; subst. apply filter_In in H. destruct H as [H _]. apply in_combine_r in H; auto.
  - intros r Hr. destruct (In_combine_snd ys' outs' r L Hr) as (y & Hy). apply H in Hy. destruct Hy as [Hy _]. eapply in_combine_r; eauto.
  - intros y Hy. destruct (In_combine_fst ys' outs' y L Hy) as (r & Hr). apply H in Hr. destruct Hr as [Hr _]. eapply in_combine_l; eauto.
Qed.
Lemma forallb_incl (p : val -> bool) l l' : forallb p l = true -> (forall x, In x l' -> In x l) -> forallb p l' = true.
Proof. clear sem trips index truth. rewrite !forallb_forall. auto. Qed.

(** ** RemoveUnusedYieldedValues *)
Lemma remove_unused_yields_sound (U : val -> Prop) used next next' g new m e e1 :
  ssa next [g] [] e -> forallb secret (results g) = true -> (forall v, U v -> In v used) ->
  remove_unused_yields used next g = Some (new, m, next') -> run [g] e = Some e1 -> sound U next next' [g] new m e.
Proof.
  intros Hssa Hsec HU C E1. destruct g as [| | |ins args body ys outs| |]; try discriminate C. cbn [remove_unused_yields] in C. cbn [results] in Hsec.
  destruct (keep_yields _ ys outs) as [ys' outs'] eqn:K. destruct (_ =? _); [discriminate C|]. injection C as <- <- <-.
  gen_facts Hssa. gen_inv E1. destruct (keep_facts _ _ _ _ _ K Hsec No) as (Lk & Nk & Ik & Iy & Hk).
  apply regen with (R := same (fun _ => True)) (e1 := e1); auto; try apply same_typed; try apply same_good.
  - eapply forallb_incl; eauto.
  - intros v [H|[H|H]]; auto.
  - intros a b [].
  - apply same_subs; auto.
  - intros ea1 ea2 [H1 H2] [H3 H4] v v' w (-> & _) Hw. destruct (in_dec val_dec v args) as [Hi|Hn].
    + destruct (In_combine_snd ins args v Li Hi) as (x & Hx). rewrite (H3 _ _ Hx), <- (H1 _ _ Hx); auto.
    + rewrite H4, <- H2; auto.
  - intros y' Hy. exists y'. split; [auto | split; auto].
  - intros y v Hv H. left. exists y. split; [|split; auto]. change (look [] v) with v. apply Hk. split; auto.
    cbn [snd]. destruct (mem_spec v used); auto.
Qed.
(** ** DedupeYieldedValues *)
Lemma find_index_some v l i : find_index v l = Some i -> nth_error l i = Some v.
Proof.
  clear sem trips index truth.
  revert i; induction l as [|x l IH]; intro i; cbn [find_index]; try discriminate. destruct (veqb_spec v x) as [<-|N].
  - intro E; injection E as <-; auto.
  - destruct (find_index v l) as [j|]; cbn [option_map]; try discriminate. intro E; injection E as <-. cbn; auto.
Qed.
Lemma find_index_none v l : find_index v l = None <-> ~ In v l.
Proof.
  clear sem trips index truth.
  induction l as [|x l IH]; cbn [find_index In]; [tauto|]. destruct (veqb_spec v x) as [<-|N].
  - split; [discriminate | tauto].
  - destruct (find_index v l) as [j|]; cbn [option_map].
    + split; [discriminate|]. intro H. exfalso. apply H. right. destruct (in_dec val_dec v l); auto. exfalso. assert (Some j = None) by (apply IH; auto). discriminate.
    + split; auto. intros _ [->|H]; [congruence | apply IH in H; auto].
Qed.
Lemma first_repeat_spec seen ys outs prev r r' :
  length seen = length prev -> first_repeat seen ys outs prev = Some (r, r') ->
  exists y i j, i < j /\ nth_error (seen ++ ys) j = Some y /\ nth_error (prev ++ outs) j = Some r /\
    nth_error (seen ++ ys) i = Some y /\ nth_error (prev ++ outs) i = Some r'.
Proof.
  clear sem trips index truth.
  revert seen outs prev; induction ys as [|y ys IH]; intros seen [|o outs] prev L; cbn [first_repeat]; try discriminate.
  destruct (find_index y seen) as [i|] eqn:F.
  - intro E; injection E as <- <-. apply find_index_some in F. assert (i < length seen) by (apply nth_error_Some; congruence).
    exists y, i, (length seen). split; auto. rewrite (nth_error_app2 seen), (nth_error_app2 prev), L, Nat.sub_diag by lia. cbn [nth_error].
    rewrite !nth_error_app1 by lia. repeat split; auto. apply nth_error_nth'. lia.
  - intro E. apply IH in E; [|rewrite !app_length; cbn; lia]. rewrite <- !app_assoc in E. cbn [app] in E. exact E.
Qed.
Lemma dedupe_sound (U : val -> Prop) next next' g new m e e1 :
  ssa next [g] [] e -> forallb secret (results g) = true -> dedupe_yields next g = Some (new, m, next') ->
  run [g] e = Some e1 -> sound U next next' [g] new m e.
Proof.
  intros Hssa Hsec C E1. destruct g as [| | |ins args body ys outs| |]; try discriminate C. cbn [dedupe_yields] in C. cbn [results] in Hsec.
  destruct (first_repeat [] ys outs []) as [[r r']|] eqn:F; [|discriminate C].
  destruct (keep_yields _ ys outs) as [ys' outs'] eqn:K. injection C as <- <- <-.
  gen_facts Hssa. gen_inv E1. destruct (keep_facts _ _ _ _ _ K Hsec No) as (Lk & Nk & Ik & Iy & Hk).
  apply first_repeat_spec in F; auto. cbn [app] in F. destruct F as (y0 & i & j & Hij & Hyj & Hrj & Hyi & Hri).
  assert (Er : as_secret r' = r').
  { apply nth_error_In in Hri. apply (forallb_In _ _ _ Hsec) in Hri. destruct r'; cbn in *; subst; auto. }
  assert (Nr : r <> r').
  { intros ->. assert (i = j); [|lia]. apply (proj1 (NoDup_nth_error outs) No); [apply nth_error_Some; congruence | congruence]. }
  rewrite Er.
  apply regen with (R := same (fun _ => True)) (e1 := e1); auto; try apply same_typed; try apply same_good.
  - eapply forallb_incl; eauto.
  - intros v [H|[H|H]]; auto.
  - intros a b [H|[]]. injection H as <- <-. apply nth_error_In in Hrj, Hri. repeat split; auto.
    + pose proof (forallb_In _ _ _ Hsec Hrj) as A. pose proof (forallb_In _ _ _ Hsec Hri) as B. unfold secret in *. congruence.
    + apply Hun; auto.
  - apply same_subs; auto.
  - intros ea1 ea2 [H1 H2] [H3 H4] v v' w (-> & _) Hw. destruct (in_dec val_dec v args) as [Hi|Hn].
    + destruct (In_combine_snd ins args v Li Hi) as (x & Hx). rewrite (H3 _ _ Hx), <- (H1 _ _ Hx); auto.
    + rewrite H4, <- H2; auto.
  - intros y' Hy. exists y'. split; [auto | split; auto].
  - intros y v Hv H. left. exists y. split; [|split; auto]. apply Hk. cbn [snd].
    unfold look. cbn [find fst]. destruct (veqb_spec v r) as [->|N].
    + cbn [snd]. rewrite veqb_false by congruence. split; auto. apply In_combine_nth. exists i. split; auto.
      apply In_combine_nth in H. destruct H as (k & Hk1 & Hk2). replace k with j in *; [congruence|].
      apply (proj1 (NoDup_nth_error outs) No); [apply nth_error_Some; congruence | congruence].
    + rewrite veqb_false by auto. auto.
Qed.
End Patterns.
