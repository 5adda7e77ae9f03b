(** How programs with secret.generic behave under the replacement of values. *)
From Coq Require Import List Bool Arith Lia.
From Verif Require Import Generic_Spec Generic_Model.
Import ListNotations.

(** * Values *)
Lemma veqb_spec a b : reflect (a = b) (veqb a b).
Proof.
  destruct a as [s n], b as [s' n']. unfold veqb; cbn [fst snd].
  destruct (eqb_spec s s'); cbn [andb].
  - destruct (Nat.eqb_spec n n'); constructor; congruence.
  - constructor; congruence.
Qed.
Lemma veqb_refl a : veqb a a = true.
Proof. destruct (veqb_spec a a); congruence. Qed.
Lemma veqb_false a b : a <> b -> veqb a b = false.
Proof. destruct (veqb_spec a b); congruence. Qed.
Definition val_dec (a b : val) : {a = b} + {a <> b}.
Proof. destruct (veqb a b) eqn:E; destruct (veqb_spec a b); try congruence; auto. Defined.
Lemma mem_spec v l : reflect (In v l) (mem v l).
Proof.
  unfold mem. destruct (existsb (veqb v) l) eqn:E; constructor.
  - apply existsb_exists in E. destruct E as (x & Hx & E). destruct (veqb_spec v x); congruence.
  - intro H. assert (existsb (veqb v) l = true) by (apply existsb_exists; exists v; split; [auto | apply veqb_refl]). congruence.
Qed.

(** * Induction *)
Section Ind.
Variable P : op -> Prop.
Hypothesis HP : forall n xs rs, P (Plain n xs rs).
Hypothesis HC : forall r x, P (Conceal r x).
Hypothesis HR : forall r x, P (Reveal r x).
Hypothesis HG : forall ins args body ys outs, Forall P body -> P (Generic ins args body ys outs).
Hypothesis HF : forall c inits iv iters body ys rs, Forall P body -> P (For c inits iv iters body ys rs).
Hypothesis HI : forall c thn tys els eys rs, Forall P thn -> Forall P els -> P (If c thn tys els eys rs).
Fixpoint op_ind2 (o : op) : P o :=
  let all := fix all (l : list op) : Forall P l :=
    match l with [] => Forall_nil P | x :: l' => Forall_cons x (op_ind2 x) (all l') end in
  match o with
  | Plain n xs rs => HP n xs rs
  | Conceal r x => HC r x
  | Reveal r x => HR r x
  | Generic ins args body ys outs => HG ins args body ys outs (all body)
  | For c inits iv iters body ys rs => HF c inits iv iters body ys rs (all body)
  | If c thn tys els eys rs => HI c thn tys els eys rs (all thn) (all els)
  end.
End Ind.

(** * Operations that agree up to the values they read *)
Section Sub.
Variable R : val -> val -> Prop.
Fixpoint sub (o o' : op) {struct o} : Prop :=
  let subs := fix subs (l l' : list op) {struct l} : Prop :=
    match l, l' with
    | [], [] => True
    | x :: l, x' :: l' => sub x x' /\ subs l l'
    | _, _ => False
    end in
  match o, o' with
  | Plain n xs rs, Plain n' xs' rs' => n = n' /\ Forall2 R xs xs' /\ rs = rs'
  | Conceal r x, Conceal r' x' => r = r' /\ R x x'
  | Reveal r x, Reveal r' x' => r = r' /\ R x x'
  | Generic ins args body ys outs, Generic ins' args' body' ys' outs' =>
      Forall2 R ins ins' /\ args = args' /\ subs body body' /\ Forall2 R ys ys' /\ outs = outs'
  | For c inits iv iters body ys rs, For c' inits' iv' iters' body' ys' rs' =>
      R c c' /\ Forall2 R inits inits' /\ iv = iv' /\ iters = iters' /\ subs body body' /\ Forall2 R ys ys' /\ rs = rs'
  | If c thn tys els eys rs, If c' thn' tys' els' eys' rs' =>
      R c c' /\ subs thn thn' /\ Forall2 R tys tys' /\ subs els els' /\ Forall2 R eys eys' /\ rs = rs'
  | _, _ => False
  end.
Fixpoint subs (l l' : list op) {struct l} : Prop :=
  match l, l' with
  | [], [] => True
  | x :: l, x' :: l' => sub x x' /\ subs l l'
  | _, _ => False
  end.
End Sub.
Lemma sub_generic R ins args body ys outs ins' args' body' ys' outs' :
  sub R (Generic ins args body ys outs) (Generic ins' args' body' ys' outs') =
  (Forall2 R ins ins' /\ args = args' /\ subs R body body' /\ Forall2 R ys ys' /\ outs = outs').
Proof. reflexivity. Qed.
Lemma sub_for R c inits iv iters body ys rs c' inits' iv' iters' body' ys' rs' :
  sub R (For c inits iv iters body ys rs) (For c' inits' iv' iters' body' ys' rs') =
  (R c c' /\ Forall2 R inits inits' /\ iv = iv' /\ iters = iters' /\ subs R body body' /\ Forall2 R ys ys' /\ rs = rs').
Proof. reflexivity. Qed.
Lemma sub_if R c thn tys els eys rs c' thn' tys' els' eys' rs' :
  sub R (If c thn tys els eys rs) (If c' thn' tys' els' eys' rs') =
  (R c c' /\ subs R thn thn' /\ Forall2 R tys tys' /\ subs R els els' /\ Forall2 R eys eys' /\ rs = rs').
Proof. reflexivity. Qed.
Lemma sub_results R o o' : sub R o o' -> results o = results o'.
Proof.
  destruct o, o'; try (cbn; tauto); rewrite ?sub_generic, ?sub_for, ?sub_if; cbn; intuition congruence.
Qed.

Lemma results_defs o v : In v (results o) -> In v (defs o).
Proof. destruct o; cbn [results defs In]; rewrite ?in_app_iff; tauto. Qed.
Lemma results_defs_all l v : In v (flat_map results l) -> In v (flat_map defs l).
Proof. rewrite !in_flat_map. intros (o & ? & ?). exists o; split; auto using results_defs. Qed.

(** replacement does not touch the values defined in the code *)
Definition good (R : val -> val -> Prop) (D : list val) : Prop :=
  forall v v' d, R v v' -> In d D -> (v = d \/ v' = d) -> v = v'.
Definition typed (R : val -> val -> Prop) : Prop := forall v v', R v v' -> fst v = fst v'.

Lemma good_incl R D D' : good R D -> (forall d, In d D' -> In d D) -> good R D'.
Proof. intros H Hi v v' d Hr Hd. eapply H; eauto. Qed.
Lemma typed_public R xs xs' : typed R -> Forall2 R xs xs' -> forallb public xs' = forallb public xs.
Proof.
  intros Ht H; induction H as [|x x' xs xs' Hx Hxs IH]; cbn [forallb]; auto. unfold public at 1 3. rewrite (Ht _ _ Hx), IH; auto.
Qed.
Lemma typed_map R xs xs' : typed R -> Forall2 R xs xs' -> map fst xs = map fst xs'.
Proof. intros Ht H; induction H as [|x x' xs xs' Hx Hxs IH]; cbn [map]; auto. rewrite (Ht _ _ Hx), IH; auto. Qed.
(** * The meaning of operations with regions *)
(** ** Environments *)
Section Env.
Context {V : Type}.
Notation env := (env V).
Notation bind := (bind V).
Notation vals := (vals V).
Notation upd := (upd V).
Lemma bind_some rs ws e : length rs = length ws <-> exists e', bind rs ws e = Some e'.
Proof.
  revert ws e; induction rs as [|r rs IH]; intros [|w ws] e; cbn [bind length]; split; try discriminate.
  - exists e; reflexivity.
  - reflexivity.
  - intros (e' & E); discriminate E.
  - intros (e' & E); discriminate E.
  - intro H. apply IH. congruence.
  - intro H. f_equal. apply IH in H. exact H.
Qed.
Lemma bind_length rs ws e e' : bind rs ws e = Some e' -> length rs = length ws.
Proof. intro H. eapply bind_some; eauto. Qed.
Lemma bind_app rs ss ws us e :
  length rs = length ws ->
  bind (rs ++ ss) (ws ++ us) e = match bind rs ws e with Some e' => bind ss us e' | None => None end.
Proof.
  revert ws e; induction rs as [|r rs IH]; intros [|w ws] e H; cbn [bind app length] in *; try congruence. apply IH; congruence.
Qed.
Lemma bind_frame rs ws e e' v : bind rs ws e = Some e' -> ~ In v rs -> e' v = e v.
Proof.
  revert ws e; induction rs as [|r rs IH]; intros [|w ws] e; cbn [bind]; try discriminate.
  - intros E _. injection E as <-; auto.
  - intros E H. rewrite (IH _ _ E) by (intro; apply H; right; auto).
    unfold upd. rewrite veqb_false; auto. intros ->; apply H; left; auto.
Qed.
Lemma bind_in rs ws e e' v : bind rs ws e = Some e' -> In v rs -> exists w, In w ws /\ e' v = Some w.
Proof.
  revert ws e; induction rs as [|r rs IH]; intros [|w ws] e; cbn [bind In]; try discriminate; try tauto.
  intros E H. destruct (in_dec val_dec v rs) as [Hi | Hn].
  - destruct (IH _ _ E Hi) as (w' & ? & ?). exists w'; auto.
  - destruct H as [-> | H]; [| tauto]. exists w. split; auto. rewrite (bind_frame _ _ _ _ _ E Hn). unfold upd. rewrite veqb_refl; auto.
Qed.
Lemma bind_nth rs ws e e' i v :
  NoDup rs -> bind rs ws e = Some e' -> nth_error rs i = Some v -> e' v = nth_error ws i.
Proof.
  revert ws e i; induction rs as [|r rs IH]; intros [|w ws] e [|i] ND; cbn [bind nth_error]; try discriminate.
  - intros E H. injection H as ->. apply NoDup_cons_iff in ND. rewrite (bind_frame _ _ _ _ _ E) by tauto.
    unfold upd. rewrite veqb_refl; auto.
  - intros E H. apply NoDup_cons_iff in ND. eapply IH; eauto; tauto.
Qed.
Lemma vals_some xs e : (exists ws, vals xs e = Some ws) <-> Forall (fun x => e x <> None) xs.
Proof.
  induction xs as [|x xs IH]; cbn [vals]; split.
  - constructor.
  - exists []; auto.
  - intros (ws & E). destruct (e x) eqn:Ex; try discriminate. destruct (vals xs e); try discriminate.
    constructor; [congruence | apply IH; eauto].
  - intro H. inversion H as [|? ? H1 H2]; subst. apply IH in H2. destruct H2 as (ws & ->). destruct (e x); [eauto | congruence].
Qed.
Lemma vals_length xs e ws : vals xs e = Some ws -> length ws = length xs.
Proof.
  revert ws; induction xs as [|x xs IH]; cbn [vals]; intros ws E.
  - injection E as <-; auto.
  - destruct (e x); try discriminate. destruct (vals xs e); try discriminate. injection E as <-. cbn; auto.
Qed.
Lemma vals_app xs zs e :
  vals (xs ++ zs) e = match vals xs e, vals zs e with Some a, Some b => Some (a ++ b) | _, _ => None end.
Proof.
  induction xs as [|x xs IH]; cbn [vals app].
  - destruct (vals zs e); auto.
  - rewrite IH. destruct (e x), (vals xs e), (vals zs e); auto.
Qed.
Lemma vals_nth xs e ws i x : vals xs e = Some ws -> nth_error xs i = Some x -> e x = nth_error ws i.
Proof.
  revert ws i; induction xs as [|y xs IH]; intros ws [|i]; cbn [vals nth_error]; try discriminate;
  destruct (e y) eqn:Ey; try discriminate; destruct (vals xs e) eqn:Ex; try discriminate; intros E H; injection E as <-.
  - injection H as ->. auto.
  - cbn. eauto.
Qed.
Lemma vals_ext xs e e' : (forall x, In x xs -> e x = e' x) -> vals xs e = vals xs e'.
Proof.
  induction xs as [|x xs IH]; intro H; cbn [vals]; auto. rewrite H, IH; auto; [intros; apply H; right; auto | left; auto].
Qed.
Lemma vals_map f xs e e' ws :
  vals xs e = Some ws -> (forall x w, In x xs -> e x = Some w -> e' (f x) = Some w) -> vals (map f xs) e' = Some ws.
Proof.
  revert ws; induction xs as [|x xs IH]; cbn [vals map]; intros ws E H; auto.
  destruct (e x) eqn:Ex; try discriminate. destruct (vals xs e) eqn:Exs; try discriminate. injection E as <-.
  rewrite (H x v), (IH l); auto; [intros; apply H; auto; right; auto | left; auto].
Qed.
Lemma bind_vals rs ws e e' : NoDup rs -> bind rs ws e = Some e' -> vals rs e' = Some ws.
Proof.
  revert ws e; induction rs as [|r rs IH]; intros [|w ws] e ND; cbn [bind vals]; try discriminate; auto.
  intro E. apply NoDup_cons_iff in ND. rewrite (IH _ _ (proj2 ND) E), (bind_frame _ _ _ _ _ E) by tauto.
  unfold upd. rewrite veqb_refl; auto.
Qed.

End Env.
Set Default Proof Using "Type".
Section Sem.
Variable V : Type.
Variable sem : nat -> list V -> option (list V).
Variable trips : V -> nat.
Variable index : nat -> V.
Variable truth : V -> bool.
Notation eval := (eval V sem trips index truth).
Notation run := (run V sem trips index truth).
Notation block := (block V sem trips index truth).
Notation env := (env V).
Notation bind := (bind V).
Notation vals := (vals V).
Notation upd := (upd V).

Lemma eval_generic ins args body ys outs e :
  eval (Generic ins args body ys outs) e =
  if forallb public args && forallb public ys then
    match vals ins e with
    | Some ws => match bind args ws e with Some e' => block body ys e' | None => None end
    | None => None
    end
  else None.
Proof. reflexivity. Qed.
Lemma eval_for c inits iv iters body ys rs e :
  eval (For c inits iv iters body ys rs) e =
  if public c && public iv && same_types inits iters && same_types ys iters && same_types rs iters then
    match e c, vals inits e with
    | Some n, Some ws =>
        iterate V (trips n)
          (fun i ws => match bind (iv :: iters) (index i :: ws) e with Some e' => block body ys e' | None => None end) 0 ws
    | _, _ => None
    end
  else None.
Proof. reflexivity. Qed.
Lemma eval_if c thn tys els eys rs e :
  eval (If c thn tys els eys rs) e =
  if public c && same_types tys rs && same_types eys rs then
    match e c with
    | Some w => if truth w then block thn tys e else block els eys e
    | None => None
    end
  else None.
Proof. reflexivity. Qed.

(** ** Sequences *)
Lemma run_app l1 l2 e : run (l1 ++ l2) e = match run l1 e with Some e' => run l2 e' | None => None end.
Proof.
  revert e; induction l1 as [|o l1 IH]; intro e; cbn [run app]; auto.
  destruct (eval o e); auto. destruct (bind (results o) l e); auto.
Qed.
Lemma run_cons o l e :
  run (o :: l) e = match eval o e with
                   | Some ws => match bind (results o) ws e with Some e' => run l e' | None => None end
                   | None => None
                   end.
Proof. reflexivity. Qed.
Lemma run_frame l e e' v : run l e = Some e' -> ~ In v (flat_map results l) -> e' v = e v.
Proof.
  revert e; induction l as [|o l IH]; intro e; cbn [run flat_map].
  - intros E _; injection E as <-; auto.
  - destruct (eval o e) as [ws|]; try discriminate. destruct (bind (results o) ws e) as [e1|] eqn:E1; try discriminate.
    intros E H. rewrite in_app_iff in H. rewrite (IH _ E) by tauto. eapply bind_frame; eauto.
Qed.
Lemma run_bound l e e' v : run l e = Some e' -> In v (flat_map results l) -> e' v <> None.
Proof.
  revert e; induction l as [|o l IH]; intro e; cbn [run flat_map]; [tauto|].
  destruct (eval o e) as [ws|]; try discriminate. destruct (bind (results o) ws e) as [e1|] eqn:E1; try discriminate.
  intros E H. destruct (in_dec val_dec v (flat_map results l)) as [Hi|Hn]; [eauto|].
  rewrite in_app_iff in H. destruct H as [H|H]; [|tauto].
  rewrite (run_frame _ _ _ _ E Hn). destruct (bind_in _ _ _ _ _ E1 H) as (w & _ & ->). congruence.
Qed.
(** ** Simulation *)
Definition sim (R : val -> val -> Prop) (e e' : env) : Prop := forall v v' w, R v v' -> e v = Some w -> e' v' = Some w.
Lemma sim_bind R rs ws e e' e1 :
  sim R e e' -> good R rs -> bind rs ws e = Some e1 -> exists e1', bind rs ws e' = Some e1' /\ sim R e1 e1'.
Proof.
  intros Hs Hg E. destruct (proj1 (bind_some rs ws e') (bind_length _ _ _ _ E)) as (e1' & E'). exists e1'; split; auto.
  revert ws e e' Hs Hg E E'; induction rs as [|r rs IH]; intros [|w ws] e e' Hs Hg; cbn [bind]; try discriminate.
  - intros E E'. injection E as <-; injection E' as <-; auto.
  - intros E E'. refine (IH _ _ _ _ _ E E'); [| eapply good_incl; eauto; intros; right; auto].
    intros v v' w' Hr. unfold upd. destruct (veqb_spec v r) as [-> | N].
    + intro H; rewrite <- (Hg r v' r Hr); auto; [rewrite veqb_refl; auto | left; auto].
    + destruct (veqb_spec v' r) as [-> | N']; [| eauto].
      exfalso; apply N. eapply Hg; eauto. left; auto.
Qed.
Lemma sim_vals R xs xs' e e' ws : sim R e e' -> Forall2 R xs xs' -> vals xs e = Some ws -> vals xs' e' = Some ws.
Proof.
  intros Hs H; revert ws; induction H as [|x x' xs xs' Hx Hxs IH]; cbn [vals]; intros ws E; auto.
  destruct (e x) eqn:Ex; try discriminate. destruct (vals xs e) eqn:Exs; try discriminate. injection E as <-.
  rewrite (Hs _ _ _ Hx Ex), (IH _ eq_refl); auto.
Qed.
Lemma iterate_mono n f f' i ws us :
  (forall i ws us, f i ws = Some us -> f' i ws = Some us) -> iterate V n f i ws = Some us -> iterate V n f' i ws = Some us.
Proof.
  intro H; revert i ws; induction n as [|n IH]; intros i ws; cbn [iterate]; auto.
  destruct (f i ws) as [ws'|] eqn:E; try discriminate. rewrite (H _ _ _ E). apply IH.
Qed.

Definition sim_op (o : op) : Prop := forall R o' e e' ws,
  typed R -> good R (defs o) -> sim R e e' -> sub R o o' -> eval o e = Some ws -> eval o' e' = Some ws.
Lemma sim_run_of l : Forall sim_op l -> forall R l' e e' e1,
  typed R -> good R (flat_map defs l) -> sim R e e' -> subs R l l' -> run l e = Some e1 ->
  exists e1', run l' e' = Some e1' /\ sim R e1 e1'.
Proof.
  induction 1 as [|o l Ho Hl IH]; intros R [|o' l'] e e' e1 Ht Hg Hs Hb E; cbn [subs] in Hb; try tauto.
  - cbn [run] in *. injection E as <-. eauto.
  - destruct Hb as [Hb1 Hb2]. rewrite run_cons in *. cbn [flat_map] in Hg.
    destruct (eval o e) as [ws|] eqn:Eo; try discriminate. destruct (bind (results o) ws e) as [e2|] eqn:E2; try discriminate.
    rewrite (Ho R o' e e' ws); auto; [| eapply good_incl; eauto; intros; apply in_or_app; auto].
    rewrite <- (sub_results _ _ _ Hb1).
    destruct (sim_bind R _ _ _ e' _ Hs (good_incl _ _ _ Hg (fun d H => in_or_app _ _ _ (or_introl (results_defs _ _ H)))) E2) as (e2' & -> & Hs2).
    eapply IH; eauto. eapply good_incl; eauto; intros; apply in_or_app; auto.
Qed.
Lemma sim_block_of l : Forall sim_op l -> forall R l' ys ys' e e' ws,
  typed R -> good R (flat_map defs l) -> sim R e e' -> subs R l l' -> Forall2 R ys ys' -> block l ys e = Some ws -> block l' ys' e' = Some ws.
Proof.
  intros Hl R l' ys ys' e e' ws Ht Hg Hs Hb Hy. unfold Generic_Spec.block.
  destruct (run l e) as [e1|] eqn:E; try discriminate.
  destruct (sim_run_of l Hl R l' e e' e1 Ht Hg Hs Hb E) as (e1' & -> & Hs1). apply sim_vals with (R := R); auto.
Qed.
Lemma eval_sim o : sim_op o.
Proof.
  induction o as [n xs rs | r x | r x | ins args body ys outs IH | c inits iv iters body ys rs IH | c thn tys els eys rs IHt IHe]
    using op_ind2; intros R o' e e' ws Ht Hg Hs Hb E; destruct o'; try (cbn in Hb; tauto);
    rewrite ?sub_generic, ?sub_for, ?sub_if, ?eval_generic, ?eval_for, ?eval_if in *.
  - cbn [sub] in Hb. destruct Hb as (<- & Hx & <-). cbn [Generic_Spec.eval] in *. rewrite (typed_public _ _ _ Ht Hx).
    destruct (_ && _); try discriminate. destruct (vals xs e) eqn:Ex; try discriminate. rewrite (sim_vals _ _ _ _ _ _ Hs Hx Ex); auto.
  - cbn [sub] in Hb. destruct Hb as (<- & Hx). cbn [Generic_Spec.eval] in *. unfold public in *. rewrite <- (Ht _ _ Hx).
    destruct (_ && _); try discriminate. eapply sim_vals; eauto.
  - cbn [sub] in Hb. destruct Hb as (<- & Hx). cbn [Generic_Spec.eval] in *. unfold secret in *. rewrite <- (Ht _ _ Hx).
    destruct (_ && _); try discriminate. eapply sim_vals; eauto.
  - destruct Hb as (Hi & <- & Hbody & Hy & <-). rewrite (typed_public _ _ _ Ht Hy). destruct (_ && _); try discriminate.
    destruct (vals ins e) eqn:Ei; try discriminate. rewrite (sim_vals _ _ _ _ _ _ Hs Hi Ei).
    destruct (bind args l e) as [e1|] eqn:E1; try discriminate. cbn [defs] in Hg.
    destruct (sim_bind R _ _ _ e' _ Hs (good_incl _ _ _ Hg (fun d H => in_or_app _ _ _ (or_introl H))) E1) as (e1' & -> & Hs1).
    eapply sim_block_of; eauto. eapply good_incl; eauto; intros; rewrite !in_app_iff; auto.
  - destruct Hb as (Hc & Hi & <- & <- & Hbody & Hy & <-). unfold public, same_types in *.
    rewrite <- (Ht _ _ Hc), <- (typed_map _ _ _ Ht Hi), <- (typed_map _ _ _ Ht Hy). destruct (_ && _ && _); try discriminate.
    destruct (e c) eqn:Ec; try discriminate. rewrite (Hs _ _ _ Hc Ec).
    destruct (vals inits e) eqn:Ei; try discriminate. rewrite (sim_vals _ _ _ _ _ _ Hs Hi Ei).
    eapply iterate_mono; [|exact E]. intros i us us' E1. cbv beta in *. cbn [defs] in Hg.
    destruct (bind (iv :: iters) (index i :: us) e) as [e1|] eqn:E2; try discriminate.
    destruct (sim_bind R _ _ _ e' _ Hs (good_incl R _ (iv :: iters) Hg ltac:(intros d H; cbn [In] in *; rewrite !in_app_iff; tauto)) E2) as (e1' & -> & Hs1).
    eapply sim_block_of; eauto. eapply good_incl; eauto; intros; cbn [In]; rewrite !in_app_iff; auto.
  - destruct Hb as (Hc & Hth & Hty & Hel & Hey & <-). unfold public, same_types in *.
    rewrite <- (Ht _ _ Hc), <- (typed_map _ _ _ Ht Hty), <- (typed_map _ _ _ Ht Hey). destruct (_ && _ && _); try discriminate.
    destruct (e c) eqn:Ec; try discriminate. rewrite (Hs _ _ _ Hc Ec). cbn [defs] in Hg.
    destruct (truth v); [eapply (sim_block_of thn) | eapply (sim_block_of els)]; eauto;
      eapply good_incl; eauto; intros; rewrite !in_app_iff; auto.
Qed.
Lemma all_sim l : Forall sim_op l.
Proof. apply Forall_forall. intros; apply eval_sim. Qed.
Definition run_sim l := sim_run_of l (all_sim l).
Definition block_sim l := sim_block_of l (all_sim l).
End Sem.
