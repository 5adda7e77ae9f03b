(** The rewrites of secret.generic are sound replacements, continued: operands and block arguments. *)
From Coq Require Import List Bool Arith Lia.
From Verif Require Import Generic_Spec Generic_Model Generic_Proofs Generic2_Proofs Generic3_Proofs.
Import ListNotations.
Set Default Proof Using "Type".

Section Patterns.
Variable V : Type.
Variable sem : nat -> list V -> option (list V).
Variable trips : V -> nat.
Variable index : nat -> V.
Variable truth : V -> bool.
Notation eval := (eval V sem trips index truth).
Notation run := (run V sem trips index truth).
Notation block := (block V sem trips index truth).
Notation env := (env V).
Notation bind := (bind V).
Notation vals := (vals V).
Notation ssa := (ssa V).
Notation sound := (sound V sem trips index truth).
Ltac gen_facts H :=
  destruct (generic_ssa _ _ _ _ _ _ _ _ H) as (Na & Nb & No & Dab & Dao & Dbo & Hun & Hus & Hev).
Ltac gen_inv E :=
  let ea := fresh "ea" in let eb := fresh "eb" in
  match goal with
  | Na : NoDup ?a, No : NoDup ?o |- _ =>
      destruct (generic_inv _ _ _ _ _ _ a _ _ o _ _ Na No E) as (ea & eb & Pa & Py & Li & Lo & Hin & Hea & Hfa & Hrb & Hyb & Ho & Hfo)
  end.

(** ** RemoveNonSecretGenericArgs *)
Lemma filter_pairs {A B} (p : A * B -> bool) a b x y : In (x, y) (filter p (combine a b)) <-> In (x, y) (combine a b) /\ p (x, y) = true.
Proof. apply filter_In. Qed.
Lemma NoDup_snd_filter {A B} (p : A * B -> bool) a b : NoDup b -> NoDup (map snd (filter p (combine a b))).
Proof.
  clear. revert b; induction a as [|x a IH]; intros [|y b] ND; cbn [combine filter map]; try constructor.
  apply NoDup_cons_iff in ND. destruct ND as [Ny ND]. destruct (p (x, y)); auto. cbn [map snd]. constructor; auto.
  intro H. apply in_map_iff in H. destruct H as ([x' y'] & E & H). cbn in E; subst. apply filter_In in H. destruct H as [H _]. apply in_combine_r in H; auto.
Qed.
Lemma combine_unique (a b : list val) x x' y : NoDup b -> In (x, y) (combine a b) -> In (x', y) (combine a b) -> x = x'.
Proof.
  clear. intros ND H H'. apply In_combine_nth in H, H'. destruct H as (i & Hx & Hy), H' as (j & Hx' & Hy').
  assert (i = j); [|subst; congruence]. apply (proj1 (NoDup_nth_error b) ND); [apply nth_error_Some; congruence | congruence].
Qed.
Lemma remove_public_args_sound (U : val -> Prop) next next' g new m e e1 :
  ssa next [g] [] e -> remove_public_args next g = Some (new, m, next') -> run [g] e = Some e1 -> sound U next next' [g] new m e.
Proof.
  intros Hssa C E1. destruct g as [| | |ins args body ys outs| |]; try discriminate C. cbn [remove_public_args] in C.
  set (kept := filter (fun p => secret (fst p)) (combine ins args)) in *.
  set (m0 := map (fun p => (snd p, fst p)) (filter (fun p => negb (secret (fst p))) (combine ins args))) in *.
  assert (C' : new = [Generic (map fst kept) (map snd kept) (map (subst m0) body) (map (look m0) ys) outs] /\ m = [] /\ next' = next).
  { clearbody m0. destruct m0; [discriminate C|]. injection C as <- <- <-. auto. }
  clear C. destruct C' as (-> & -> & ->).
  gen_facts Hssa. gen_inv E1.
  assert (Hm0 : forall a x, In (a, x) m0 <-> In (x, a) (combine ins args) /\ secret x = false).
  { intros a x. unfold m0. rewrite in_map_iff. split.
    - intros ([x' a'] & E & H). injection E as -> ->. apply filter_In in H. cbn [fst] in H. destruct H as [H1 H2]. split; auto. destruct (secret x); auto.
    - intros [H1 H2]. exists (x, a). split; auto. apply filter_In. cbn [fst]. rewrite H2. auto. }
  assert (Hkept : forall x a, In (x, a) (combine (map fst kept) (map snd kept)) <-> In (x, a) (combine ins args) /\ secret x = true).
  { intros x a. rewrite combine_map_fst_snd. apply filter_In. }
  assert (Hlt : forall v, snd v < next -> snd (look m0 v) < next).
  { intros v Hv. destruct (look_cases m0 v) as [-> | H]; auto. apply Hm0 in H. apply Hus. left. eapply in_combine_l. apply H. }
  assert (Hty : forall v, fst (look m0 v) = fst v).
  { intros v. destruct (look_cases m0 v) as [-> | H]; auto. apply Hm0 in H. destruct H as [H1 H2]. unfold secret in H2. rewrite H2.
    apply in_combine_r in H1. apply (forallb_In _ _ _ Pa) in H1. unfold public in H1. destruct (fst v); auto. }
  apply regen with (R := fun v v' => v' = look m0 v /\ snd v < next) (e1 := e1); auto.
  - apply NoDup_snd_filter; auto.
  - intros a H. left. apply in_map_iff in H. destruct H as ([x a'] & <- & H). apply filter_In in H. eapply in_combine_r. apply H.
  - apply defs_substs.
  - rewrite !map_length; auto.
  - rewrite map_length; auto.
  - apply (forallb_incl _ _ _ Pa). intros a H. apply in_map_iff in H. destruct H as ([x a'] & <- & H). apply filter_In in H. eapply in_combine_r. apply H.
  - apply forallb_forall. intros y H. apply in_map_iff in H. destruct H as (y' & <- & H). unfold public. rewrite Hty. apply (forallb_In _ _ _ Py H).
  - intros v [H|[H|H]].
    + apply in_map_iff in H. destruct H as ([x a'] & <- & H). apply filter_In in H. apply Hus. left. eapply in_combine_l. apply H.
    + rewrite uses_substs in H. apply in_map_iff in H. destruct H as (u & <- & H). auto.
    + apply in_map_iff in H. destruct H as (u & <- & H). auto.
  - intros a b [].
  - intros x H. apply in_map_iff in H. destruct H as ([x' a'] & <- & H). apply filter_In in H. apply Hin. eapply in_combine_l. apply H.
  - intros v v' (-> & _). auto.
  - intros v v' d (-> & _) Hd Hor. destruct (look_cases m0 v) as [-> | H]; auto. exfalso. apply Hm0 in H. destruct H as [H _]. destruct Hor as [-> | Hor].
    + apply in_combine_r in H. eapply Dab; eauto.
    + apply in_combine_l in H. rewrite Hor in H. apply Hin in H. destruct (Hun d) as [H' _]; auto.
  - apply substs_sub. intros v Hv. split; auto.
  - intros ea1 ea2 [H1 H2] [H3 H4] v v' w (-> & _) Hw. destruct (in_dec val_dec v args) as [Hi|Hn].
    + destruct (In_combine_snd ins args v Li Hi) as (x & Hx). destruct (secret x) eqn:Sx.
      * rewrite look_notin; [rewrite (H3 x v), <- (H1 _ _ Hx); auto; apply Hkept; auto|].
        intro H. apply look_in in H. apply Hm0 in H. destruct H as [H H'].
        rewrite (combine_unique _ _ _ _ _ Na H Hx) in H'. congruence.
      * assert (Hd : In v (map fst m0)) by (apply in_map_iff; exists (v, x); split; auto; apply Hm0; auto).
        apply look_in in Hd. apply Hm0 in Hd. destruct Hd as [Hd _]. rewrite (combine_unique _ _ _ _ _ Na Hd Hx).
        rewrite H4, <- (H1 _ _ Hx); auto. intro H. apply in_map_iff in H. destruct H as ([x' a'] & E & H). apply filter_In in H. cbn in E; subst a'.
        destruct H as [H _]. apply in_combine_r in H. apply in_combine_l in Hx. apply (Hin _ Hx). apply Hun; auto.
    + rewrite look_notin; [rewrite H4, <- H2; auto|].
      * intro H. apply in_map_iff in H. destruct H as ([x a'] & <- & H). apply filter_In in H. apply Hn. eapply in_combine_r. apply H.
      * intro H. apply look_in in H. apply Hm0 in H. apply Hn. eapply in_combine_r. apply H.
  - intros y' H. apply in_map_iff in H. destruct H as (y & <- & H). exists y. repeat split; auto.
  - intros y v Hv H. left. exists (look m0 y). split; [|split; auto].
    + change (look [] v) with v. apply In_combine_nth in H. destruct H as (i & Hy & Hr). apply In_combine_nth. exists i. rewrite nth_error_map, Hy. auto.
    + apply Hus. right; right. eapply in_combine_l; eauto.
Qed.

(** ** RemoveUnusedGenericArgs *)
Lemma scan_args_spec body ys ins args ins' args' p :
  scan_args body ys ins args = (ins', args', p) -> length ins = length args -> NoDup args ->
  length ins' = length args' /\ NoDup args' /\
  (forall x a, In (x, a) (combine ins' args') -> In (x, a) (combine ins args)) /\
  (forall x a, In (x, a) (combine ins args) -> In a (flat_map uses body ++ ys) -> In (x, a) (combine ins' args')) /\
  (forall a x, p = Some (a, x) -> In (x, a) (combine ins args)).
Proof.
  clear. revert args ins' args' p; induction ins as [|x ins IH]; intros [|a args] ins' args' p; cbn [scan_args length]; intros E L ND; try discriminate.
  - injection E as <- <- <-. repeat split; auto. discriminate.
  - apply NoDup_cons_iff in ND. destruct ND as [Nx ND]. destruct (mem_spec a (flat_map uses body ++ ys)) as [Hm|Hm]; cbn [negb] in E.
    + destruct (mem a (ys ++ flat_map yielded_inside body)).
      * injection E as <- <- <-. repeat split; auto; [constructor; auto|]. intros a' x' E'; injection E' as <- <-. left; auto.
      * destruct (scan_args body ys ins args) as [[i r] q] eqn:Es. injection E as <- <- <-. destruct (IH args i r q Es) as (H1 & H2 & H3 & H4 & H5); auto.
        split; [cbn; auto|]. split; [constructor; auto|].
        { intro H. destruct (In_combine_snd i r a H1 H) as (x' & Hx'). apply H3 in Hx'. apply in_combine_r in Hx'. auto. }
        split; [|split].
        -- intros x' a' [H|H]; [left; auto | right; auto].
        -- intros x' a' [H|H] Hu; [left; auto | right; auto].
        -- intros a' x' H. right. auto.
    + destruct (IH args ins' args' p E) as (H1 & H2 & H3 & H4 & H5); auto. split; auto. split; auto. split; [|split].
      * intros x' a' H. right; auto.
      * intros x' a' [H|H] Hu; [injection H as -> ->; tauto | auto].
      * intros a' x' H. right. auto.
Qed.
Lemma remove_unused_args_sound (U : val -> Prop) next next' ins args body ys outs new m e e1 :
  let g := Generic ins args body ys outs in
  ssa next [g] [] e -> forallb secret outs = true -> (forall x a, In (x, a) (combine ins args) -> In a ys -> secret x = true) ->
  remove_unused_args next g = Some (new, m, next') -> run [g] e = Some e1 -> sound U next next' [g] new m e.
Proof.
  intros g Hssa Hsec Hpass C E1. unfold g in *. cbn [remove_unused_args] in C.
  destruct (scan_args body ys ins args) as [[ins' args'] p] eqn:Es.
  gen_facts Hssa. gen_inv E1. destruct (scan_args_spec _ _ _ _ _ _ _ Es Li Na) as (L' & N' & Sub & Keep & Hp).
  assert (Hsim : forall ea ea', args_eq V ins args e ea -> args_eq V ins' args' e ea' -> sim V (same (fun v => In v (flat_map uses body ++ ys))) ea ea').
  { intros ea1 ea2 [H1 H2] [H3 H4] v v' w (-> & Hu) Hw. destruct (in_dec val_dec v args) as [Hi|Hn].
    - destruct (In_combine_snd ins args v Li Hi) as (x & Hx). rewrite (H3 x v), <- (H1 _ _ Hx); auto.
    - rewrite H4, <- H2; auto. intro H. apply Hn. destruct (In_combine_snd ins' args' v L' H) as (x & Hx). apply Sub in Hx. eapply in_combine_r; eauto. }
  assert (Ha' : forall a, In a args' -> In a args).
  { intros a H. destruct (In_combine_snd ins' args' a L' H) as (x & Hx). apply Sub in Hx. eapply in_combine_r; eauto. }
  assert (Hi' : forall x, In x ins' -> In x ins).
  { intros x H. destruct (In_combine_fst ins' args' x L' H) as (a & Hx). apply Sub in Hx. eapply in_combine_l; eauto. }
  destruct p as [[a x]|].
  - destruct (keep_yields _ ys outs) as [ys' outs'] eqn:K. injection C as <- <- <-.
    destruct (keep_facts _ _ _ _ _ K Hsec No) as (Lk & Nk & Ik & Iy & Hk).
    specialize (Hp a x eq_refl). pose proof (in_combine_l _ _ _ _ Hp) as Hx. pose proof (in_combine_r _ _ _ _ Hp) as Ha.
    set (m0 := map (fun p => (snd p, x)) (filter (fun p => veqb (fst p) a) (combine ys outs))).
    assert (Hm0 : forall r b, In (r, b) m0 <-> b = x /\ In (a, r) (combine ys outs)).
    { intros r b. unfold m0. rewrite in_map_iff. split.
      - intros ([y r'] & E & H). injection E as -> <-. apply filter_In in H. cbn [fst] in H. destruct H as [H1 H2]. destruct (veqb_spec y a); [subst; auto | discriminate].
      - intros [-> H]. exists (a, r). split; auto. apply filter_In. cbn [fst]. rewrite veqb_refl; auto. }
    apply regen with (R := same (fun v => In v (flat_map uses body ++ ys))) (e1 := e1); auto; try apply same_typed; try apply same_good.
    + apply (forallb_incl _ _ _ Pa); auto.
    + apply (forallb_incl _ _ _ Py); auto.
    + intros v [H|[H|H]]; auto.
    + intros r b H. apply Hm0 in H. destruct H as [-> H]. pose proof (in_combine_l _ _ _ _ H) as H1. pose proof (in_combine_r _ _ _ _ H) as H2.
      pose proof (Hpass _ _ Hp H1) as Sx. pose proof (forallb_In _ _ _ Hsec H2) as Sr. unfold secret in *. repeat split; auto; congruence.
    + apply same_subs. intros; apply in_or_app; auto.
    + intros y' H. exists y'. split; auto. split; auto. apply in_or_app; auto.
    + intros y v Hv H. destruct (veqb_spec y a) as [->|N].
      * right. assert (Hd : In v (map fst m0)) by (apply in_map_iff; exists (v, x); split; auto; apply Hm0; auto).
        apply look_in in Hd. apply Hm0 in Hd. destruct Hd as [-> _]. auto.
      * left. exists y. split; [|split; auto; apply in_or_app; right; eapply in_combine_l; eauto].
        rewrite look_notin; [apply Hk; split; auto; cbn [fst]; rewrite veqb_false; auto|].
        intro Hd. apply look_in in Hd. apply Hm0 in Hd. destruct Hd as [_ Hd]. apply N. apply (combine_unique _ _ _ _ _ No H Hd).
  - destruct (length args' =? length args); [discriminate C|]. injection C as <- <- <-.
    apply regen with (R := same (fun v => In v (flat_map uses body ++ ys))) (e1 := e1); auto; try apply same_typed; try apply same_good.
    + apply (forallb_incl _ _ _ Pa); auto.
    + intros v [H|[H|H]]; auto.
    + intros a b [].
    + apply same_subs. intros; apply in_or_app; auto.
    + intros y' H. exists y'. split; auto. split; auto. apply in_or_app; auto.
    + intros y v Hv H. left. exists y. split; auto. split; auto. apply in_or_app; right; eapply in_combine_l; eauto.
Qed.

(** ** CaptureAmbientScope *)
Lemma walk_uses o u : In u (walk o) <-> In u (uses o).
Proof.
  clear. assert (Hm : forall l, Forall (fun o => In u (walk o) <-> In u (uses o)) l -> (In u (flat_map walk l) <-> In u (flat_map uses l))).
  { induction 1 as [|x l Hx Hl IH]; cbn [flat_map]; [tauto|]. rewrite !in_app_iff. tauto. }
  induction o as [n xs rs | r x | r x | ins args body ys outs IH | c inits iv iters body ys rs IH | c thn tys els eys rs IHt IHe] using op_ind2;
    cbn [walk uses In]; try tauto.
  - rewrite !in_app_iff, (Hm _ IH). tauto.
  - rewrite !in_app_iff. cbn [In]. rewrite (Hm _ IH), ?in_app_iff. tauto.
  - rewrite !in_app_iff. cbn [In]. rewrite (Hm _ IHt), (Hm _ IHe). tauto.
Qed.
Lemma walks_uses l u : In u (flat_map walk l) <-> In u (flat_map uses l).
Proof. clear. rewrite !in_flat_map. split; intros (o & H & H'); exists o; split; auto; apply walk_uses; auto. Qed.
Lemma capture_ambient_sound (U : val -> Prop) next next' ins args body ys outs new m e e1 :
  let g := Generic ins args body ys outs in
  ssa next [g] [] e ->
  (forall v, In v (flat_map uses body ++ ys) -> ~ In v (args ++ flat_map defs body) -> e v <> None /\ public v = true) ->
  capture_ambient next g = Some (new, m, next') -> run [g] e = Some e1 -> sound U next next' [g] new m e.
Proof.
  intros g Hssa Hvis C E1. unfold g in *. cbn [capture_ambient] in C.
  destruct (find _ _) as [v|] eqn:F; [|discriminate C]. injection C as <- <- <-.
  apply find_some in F. destruct F as [Hw F]. destruct (mem_spec v (args ++ flat_map defs body)) as [|Nv]; [discriminate F|]. clear F.
  gen_facts Hssa. gen_inv E1. rewrite in_app_iff, walks_uses in Hw.
  destruct (Hvis v) as [Hve Hvp]; [apply in_or_app; auto | auto |].
  assert (Hvlt : snd v < next) by auto. rewrite in_app_iff in Nv.
  set (a := (fst v, next)). set (m0 := [(v, a)]).
  assert (Hl : forall u, look m0 u = u \/ u = v /\ look m0 u = a).
  { intro u. destruct (look_cases m0 u) as [H | [H | []]]; auto. injection H as H1 H2. auto. }
  assert (Hlt : forall u, snd u < next -> snd (look m0 u) < S next).
  { intros u Hu. destruct (Hl u) as [-> | (_ & ->)]; [lia | cbn; lia]. }
  assert (Hty : forall u, fst (look m0 u) = fst u).
  { intros u. destruct (Hl u) as [-> | (-> & ->)]; auto. }
  assert (Hav : ~ In a args) by (intro H; assert (snd a < next) by (apply Hun; auto); cbn in *; lia).
  apply regen with (R := fun u u' => (u' = look m0 u \/ u' = u) /\ snd u < next) (e1 := e1); auto.
  - apply NoDup_app_iff. repeat split; auto; [constructor; [tauto | constructor]|]. intros u Hu [<-|[]]; auto.
  - intros u H. apply in_app_iff in H. destruct H as [H|[<-|[]]]; auto; right; cbn; lia.
  - apply defs_substs_own.
  - rewrite !app_length. cbn. lia.
  - rewrite map_length; auto.
  - rewrite forallb_app, Pa. cbn [forallb andb]. unfold public in *. cbn [fst]. rewrite andb_true_r. exact Hvp.
  - apply forallb_forall. intros y H. apply in_map_iff in H. destruct H as (y' & <- & H). unfold public. rewrite Hty. apply (forallb_In _ _ _ Py H).
  - intros u [H|[H|H]].
    + apply in_app_iff in H. destruct H as [H|[<-|[]]]; [assert (snd u < next) by auto; lia | lia].
    + apply in_flat_map in H. destruct H as (o & Ho' & H). apply in_map_iff in Ho'. destruct Ho' as (o' & <- & Ho').
      apply uses_subst_own in H. destruct H as [H|(u' & H & ->)].
      * assert (snd u < next) by (apply Hus; right; left; apply in_flat_map; eauto). lia.
      * apply Hlt, Hus. right; left; apply in_flat_map; eauto.
    + apply in_map_iff in H. destruct H as (u' & <- & H). auto.
  - intros x y [].
  - intros x H. apply in_app_iff in H. destruct H as [H|[<-|[]]]; auto.
  - intros u u' ([-> | ->] & _); auto.
  - intros u u' d ([-> | ->] & _) Hd Hor; auto. destruct (Hl u) as [-> | (-> & E)]; auto. exfalso. destruct Hor as [-> | Hor]; [tauto|].
    rewrite E in Hor. subst d. assert (snd a < next) by (apply Hun; auto). cbn in *; lia.
  - apply substs_own_sub; intros u Hu; split; auto.
  - intros ea1 ea2 [H1 H2] [H3 H4] u u' w (Hu & Hult) Hwu.
    assert (Hsame : ea2 u = Some w).
    { destruct (in_dec val_dec u args) as [Hi|Hn].
      - destruct (In_combine_snd ins args u Li Hi) as (x & Hx). rewrite (H3 x u), <- (H1 _ _ Hx); auto.
        apply In_combine_nth in Hx. destruct Hx as (i & Hx1 & Hx2). apply In_combine_nth. exists i. split; rewrite nth_error_app1; auto; apply nth_error_Some; congruence.
      - rewrite H4, <- H2; auto. rewrite in_app_iff. intros [H|[<-|[]]]; auto. cbn in Hult. lia. }
    destruct Hu as [-> | ->]; auto. destruct (Hl u) as [-> | (-> & ->)]; auto.
    rewrite (H3 v a).
    + rewrite <- Hwu. symmetry. apply H2. tauto.
    + apply In_combine_nth. exists (length args). rewrite !nth_error_app2 by lia. rewrite Li, Nat.sub_diag. auto.
  - intros y' H. apply in_map_iff in H. destruct H as (y & <- & H). exists y. repeat split; auto.
  - intros y r Hr H. left. exists (look m0 y). split; [|split; auto].
    + change (look [] r) with r. apply In_combine_nth in H. destruct H as (i & Hy & Hr'). apply In_combine_nth. exists i. rewrite nth_error_map, Hy. auto.
    + apply Hus. right; right. eapply in_combine_l; eauto.
Qed.

(** ** ConcealThenGeneric *)
Lemma conceal_then_generic_sound (U : val -> Prop) insert before next next' g new m e e1 :
  ssa next [g] [] e -> (forall x c, concealed before x = Some c -> e x <> None -> e c = e x) ->
  conceal_then_generic insert before next g = Some (new, m, next') -> run [g] e = Some e1 -> sound U next next' [g] new m e.
Proof.
  intros Hssa Hc C E1. destruct g as [| | |ins args body ys outs| |]; try discriminate C. cbn [conceal_then_generic] in C.
  set (update := fun p : val * val => match concealed before (fst p) with
        | Some c => if mem (snd p) (flat_map (insert_dests insert) body) then None else Some c
        | None => None end) in *.
  destruct (existsb _ (combine ins args)); [|discriminate C]. injection C as <- <- <-.
  gen_facts Hssa. gen_inv E1.
  set (f := fun p : val * val => match update p with Some c => c | None => fst p end).
  assert (Hf : forall x a, In x ins -> e (f (x, a)) = e x).
  { intros x a Hx. unfold f. destruct (update (x, a)) as [c|] eqn:Eu; auto. unfold update in Eu. cbn [fst snd] in Eu.
    destruct (concealed before x) as [c'|] eqn:Ec; [|discriminate Eu]. destruct (mem a _); [discriminate Eu|]. injection Eu as <-. apply Hc; auto. }
  assert (Hb : forall x, In x (map f (combine ins args)) -> e x <> None).
  { intros x H. apply in_map_iff in H. destruct H as ([x' a] & <- & H). apply in_combine_l in H. rewrite Hf; auto. }
  apply regen with (R := same (fun _ => True)) (e1 := e1); auto; try apply same_typed; try apply same_good.
  - rewrite map_length, combine_length. lia.
  - intros v [H|H]; auto.
  - intros a b [].
  - apply same_subs; auto.
  - intros ea1 ea2 [H1 H2] [H3 H4] v v' w (-> & _) Hw. destruct (in_dec val_dec v args) as [Hi|Hn].
    + apply In_nth_error in Hi. destruct Hi as (i & Hi). destruct (nth_error_same_length args ins i v (eq_sym Li) Hi) as (x & Hx).
      rewrite (H3 (f (x, v)) v).
      * rewrite Hf by (eapply nth_error_In; eauto). rewrite <- (H1 x v); auto. apply In_combine_nth; eauto.
      * apply In_combine_nth. exists i. split; auto. rewrite nth_error_map.
        assert (Ec : nth_error (combine ins args) i = Some (x, v)); [|rewrite Ec; auto].
        clear -Hx Hi. revert args i Hx Hi. induction ins as [|y ins IH]; intros [|b args] [|i]; cbn; try discriminate; auto.
        intros; congruence.
    + rewrite H4, <- H2; auto.
  - intros y' Hy. exists y'. split; [auto | split; auto].
  - intros y v Hv H. left. exists y. split; [auto|split; auto].
Qed.
End Patterns.
