(** C79: the rewrites of secret.generic preserve the meaning of programs. *)
From Coq Require Import List Bool Arith Lia.
From Verif Require Import Generic_Spec Generic_Model Generic_Proofs Generic2_Proofs Generic3_Proofs Generic4_Proofs Generic5_Proofs
  Generic6_Proofs Generic7_Proofs Generic8_Proofs.
Import ListNotations.
Set Default Proof Using "Type".

(** One application of a canonicalization pattern (populateGenericCanonicalizers,
    SecretOps.cpp:603-611, without ConcealPlaintextInsert) to a generic in a block, any number of times.
    What is required of the generic: its results are secret, an operand that is only passed through is secret, an
    operation that may be hoisted defines public values, and no operation reads its own results. *)
Section Canonicalize.
Variables (alloc insert : nat -> bool) (eligible : op -> bool).
Definition well_typed (g : op) : Prop :=
  match g with
  | Generic ins args body ys outs =>
      forallb secret outs = true /\
      (forall x a, In (x, a) (combine ins args) -> In a ys -> secret x = true) /\
      (forall o, In o body -> eligible o = true -> forallb public (results o) = true) /\
      (forall o v, In o body -> In v (uses o) -> ~ In v (results o))
  | _ => True
  end.
Inductive canonicalize : nat -> list op -> list val -> nat -> list op -> list val -> Prop :=
| canonical next l zs : canonicalize next l zs next l zs
| canonicalize_step next pre g post zs new m next1 next2 l zs' :
    well_typed g ->
    In (Some (new, m, next1))
       [collapse alloc next g; remove_unused_yields (flat_map uses post ++ zs) next g; remove_unused_args next g;
        remove_public_args next g; hoist_plaintext eligible next g; conceal_then_generic insert pre next g] ->
    canonicalize next1 (pre ++ new ++ map (subst m) post) (map (look m) zs) next2 l zs' ->
    canonicalize next (pre ++ g :: post) zs next2 l zs'.
End Canonicalize.

Section C79.
Variable V : Type.
Variable sem : nat -> list V -> option (list V).
Variable trips : V -> nat.
Variable index : nat -> V.
Variable truth : V -> bool.
Notation run := (run V sem trips index truth).
Notation block := (block V sem trips index truth).
Notation ssa := (ssa V).
Ltac one g := change (g :: ?post) with ([g] ++ post) in *.
Ltac by_sound lem :=
  intros; match goal with
  | H : ssa ?n (?pre ++ ?g :: ?post) ?zs ?e |- _ =>
      change (g :: post) with ([g] ++ post) in *; eapply proj1, sound_block; eauto; intros; eapply lem; eauto
  end.

Theorem C79_collapse alloc next next' pre g post zs new m e ws :
  ssa next (pre ++ g :: post) zs e -> forallb secret (results g) = true -> collapse alloc next g = Some (new, m, next') ->
  block (pre ++ g :: post) zs e = Some ws -> block (pre ++ new ++ map (subst m) post) (map (look m) zs) e = Some ws.
Proof. by_sound collapse_sound. Qed.
Theorem C79_remove_unused_yields next next' pre g post zs new m e ws :
  ssa next (pre ++ g :: post) zs e -> forallb secret (results g) = true ->
  remove_unused_yields (flat_map uses post ++ zs) next g = Some (new, m, next') ->
  block (pre ++ g :: post) zs e = Some ws -> block (pre ++ new ++ map (subst m) post) (map (look m) zs) e = Some ws.
Proof. by_sound remove_unused_yields_sound. Qed.
Theorem C79_remove_unused_args_partial next next' pre ins args body ys outs post zs new m e ws :
  let g := Generic ins args body ys outs in
  ssa next (pre ++ g :: post) zs e -> forallb secret outs = true ->
  (forall x a, In (x, a) (combine ins args) -> In a ys -> secret x = true) ->
  remove_unused_args next g = Some (new, m, next') ->
  block (pre ++ g :: post) zs e = Some ws -> block (pre ++ new ++ map (subst m) post) (map (look m) zs) e = Some ws.
Proof. cbv zeta. by_sound remove_unused_args_sound. Qed.
Theorem C79_remove_public_args next next' pre g post zs new m e ws :
  ssa next (pre ++ g :: post) zs e -> remove_public_args next g = Some (new, m, next') ->
  block (pre ++ g :: post) zs e = Some ws -> block (pre ++ new ++ map (subst m) post) (map (look m) zs) e = Some ws.
Proof. by_sound remove_public_args_sound. Qed.
Theorem C79_dedupe next next' pre g post zs new m e ws :
  ssa next (pre ++ g :: post) zs e -> forallb secret (results g) = true -> dedupe_yields next g = Some (new, m, next') ->
  block (pre ++ g :: post) zs e = Some ws -> block (pre ++ new ++ map (subst m) post) (map (look m) zs) e = Some ws.
Proof. by_sound dedupe_sound. Qed.
Theorem C79_capture_ambient_partial next next' pre ins args body ys outs post zs new m e ws :
  let g := Generic ins args body ys outs in
  ssa next (pre ++ g :: post) zs e ->
  (forall v, In v (flat_map uses body ++ ys) -> ~ In v (args ++ flat_map defs body) ->
     public v = true /\ (e v <> None \/ In v (flat_map results pre))) ->
  capture_ambient next g = Some (new, m, next') ->
  block (pre ++ g :: post) zs e = Some ws -> block (pre ++ new ++ map (subst m) post) (map (look m) zs) e = Some ws.
Proof.
  cbv zeta. intros Hssa Hvis C E. change (Generic ins args body ys outs :: post) with ([Generic ins args body ys outs] ++ post) in *.
  eapply proj1, sound_block; eauto. intros e0 e1 E0 Hs E1. eapply capture_ambient_sound; eauto. intros v Hv Hn. destruct (Hvis v Hv Hn) as [Hp Hb]. split; auto.
  destruct (in_dec val_dec v (flat_map results pre)) as [Hi|Hi]; [eapply run_bound; eauto|]. rewrite (run_frame _ _ _ _ _ _ _ _ _ E0 Hi). tauto.
Qed.
Theorem C79_merge_partial next next' pre ins1 args1 body1 ys1 outs1 ins2 args2 body2 ys2 outs2 post zs new m e ws :
  let g1 := Generic ins1 args1 body1 ys1 outs1 in
  let g2 := Generic ins2 args2 body2 ys2 outs2 in
  ssa next (pre ++ g1 :: g2 :: post) zs e -> (forall v, In v (flat_map uses body2 ++ ys2) -> ~ In v outs1) ->
  merge next g1 g2 = Some (new, m, next') ->
  block (pre ++ g1 :: g2 :: post) zs e = Some ws -> block (pre ++ new ++ map (subst m) post) (map (look m) zs) e = Some ws.
Proof.
  cbv zeta. intros Hssa Hn C E.
  change (Generic ins1 args1 body1 ys1 outs1 :: Generic ins2 args2 body2 ys2 outs2 :: post) with ([Generic ins1 args1 body1 ys1 outs1; Generic ins2 args2 body2 ys2 outs2] ++ post) in *.
  eapply proj1, sound_block; eauto. intros. eapply merge_sound; eauto.
Qed.
Theorem C79_hoist_before_partial listed next next' pre ins args body ys outs post zs new m e ws :
  let g := Generic ins args body ys outs in
  ssa next (pre ++ g :: post) zs e ->
  (forall o, In o body -> listed o = true -> forallb public (results o) = true) ->
  (forall o v, In o body -> listed o = true -> In v (uses o) -> In v (operands o) \/ ~ In v (flat_map results body)) ->
  hoist_before listed next g = Some (new, m, next') ->
  block (pre ++ g :: post) zs e = Some ws -> block (pre ++ new ++ map (subst m) post) (map (look m) zs) e = Some ws.
Proof.
  cbv zeta. intros Hssa Hpub Hcap C E. change (Generic ins args body ys outs :: post) with ([Generic ins args body ys outs] ++ post) in *.
  cbn [hoist_before] in C. destruct (_ <=? 1); [discriminate C|]. destruct (index_where _ body) as [i|] eqn:I; [|discriminate C].
  destruct (index_where_spec _ _ _ I) as (o & Ho & Hc). apply andb_true_iff in Hc. destruct Hc as [Hl Hc]. pose proof (nth_error_In _ _ Ho) as Hio.
  destruct (extract_before _ _ _) as [[[n g'] next1]|] eqn:X; [|discriminate C]. injection C as <- <- <-.
  eapply proj1, sound_block; eauto. intros e0 e1 E0 Hs E1. eapply extract_before_sound; eauto.
  intros v Hv. destruct (Hcap o v Hio Hl Hv) as [Hop|]; auto. rewrite forallb_forall in Hc. specialize (Hc v Hop).
  apply negb_true_iff in Hc. destruct (mem_spec v (flat_map results body)); [discriminate Hc | auto].
Qed.
Theorem C79_hoist_plaintext eligible next next' pre ins args body ys outs post zs new m e ws :
  let g := Generic ins args body ys outs in
  ssa next (pre ++ g :: post) zs e ->
  (forall o, In o body -> eligible o = true -> forallb public (results o) = true) ->
  (forall o v, In o body -> In v (uses o) -> ~ In v (results o)) ->
  hoist_plaintext eligible next g = Some (new, m, next') ->
  block (pre ++ g :: post) zs e = Some ws -> block (pre ++ new ++ map (subst m) post) (map (look m) zs) e = Some ws.
Proof. cbv zeta. intros. eapply proj1, hoist_plaintext_block; eauto. Qed.
Lemma other_uses_free o : generic_free o = true -> other_uses o = uses o.
Proof.
  clear V sem trips index truth.
  assert (Hm : forall l, Forall (fun o => generic_free o = true -> other_uses o = uses o) l -> forallb generic_free l = true -> flat_map other_uses l = flat_map uses l).
  { induction 1 as [|x l Hx Hl IH]; cbn [flat_map forallb]; auto. intro H. apply andb_true_iff in H. destruct H. rewrite Hx, IH; auto. }
  induction o using op_ind2; cbn [generic_free other_uses uses]; auto; try discriminate.
  - intro H'. rewrite Hm; auto.
  - intro H'. apply andb_true_iff in H'. destruct H'. rewrite !Hm; auto.
Qed.
Theorem C79_hoist_after_partial listed next next' pre ins args body ys outs post zs new m e ws :
  let g := Generic ins args body ys outs in
  ssa next (pre ++ g :: post) zs e -> forallb secret outs = true -> forallb generic_free body = true ->
  (forall o, In o body -> listed o = true -> forallb public (operands o ++ results o) = true) ->
  (forall o v, In o body -> listed o = true -> In v (uses o) -> In v (operands o) \/ ~ In v (args ++ flat_map results body)) ->
  NoDup ys ->
  hoist_after listed next g = Some (new, m, next') ->
  block (pre ++ g :: post) zs e = Some ws -> block (pre ++ new ++ map (subst m) post) (map (look m) zs) e = Some ws.
Proof.
  cbv zeta. intros Hssa Hsec Hfree Hpub Hcap Hys C E. change (Generic ins args body ys outs :: post) with ([Generic ins args body ys outs] ++ post) in *.
  cbn [hoist_after] in C. destruct (_ <=? 1); [discriminate C|]. destruct (index_where _ body) as [i|] eqn:I; [|discriminate C].
  destruct (index_where_spec _ _ _ I) as (o & Ho & Hc). apply andb_true_iff in Hc. destruct Hc as [Hl Hc]. pose proof (nth_error_In _ _ Ho) as Hio.
  pose proof (Hpub o Hio Hl) as Hp. rewrite forallb_app in Hp. apply andb_true_iff in Hp. destruct Hp as [Hp1 Hp2].
  assert (Hou : flat_map other_uses body = flat_map uses body).
  { clear -Hfree. induction body as [|x l IH]; cbn [flat_map forallb] in *; auto. apply andb_true_iff in Hfree. destruct Hfree. rewrite other_uses_free, IH; auto. }
  unfold yielded_only in Hc. rewrite Hou in Hc.
  eapply proj1, sound_block; eauto. intros e0 e1 E0 Hs E1. eapply extract_after_sound; eauto.
  - intros r Hr. rewrite forallb_forall in Hc. specialize (Hc r Hr). apply negb_true_iff in Hc. destruct (mem_spec r (flat_map uses body)); [discriminate Hc | auto].
  - intros r j1 j2 _ H1 H2. rewrite NoDup_nth_error in Hys. apply Hys; [apply nth_error_Some; congruence | congruence].
Qed.
(** [outer]: the operations before those that enclose the block *)
Theorem C79_conceal_then_generic insert outer next next' pre g post zs new m e ws :
  ssa next (pre ++ g :: post) zs e -> (forall x c, In (Conceal x c) outer -> e x <> None /\ e c = e x) ->
  conceal_then_generic insert (outer ++ pre) next g = Some (new, m, next') ->
  block (pre ++ g :: post) zs e = Some ws -> block (pre ++ new ++ map (subst m) post) (map (look m) zs) e = Some ws.
Proof.
  intros Hssa Hout C E. change (g :: post) with ([g] ++ post) in *. eapply proj1, sound_block; eauto. intros e0 e1 E0 Hs E1.
  eapply conceal_then_generic_sound; eauto. eapply concealed_facts; eauto.
Qed.
Theorem C79_conceal_insert_partial insert next next' before g after zs l e ws :
  ssa next (before ++ g :: after) zs e ->
  (forall v, In v (flat_map (reads_of insert) (before ++ after)) -> ~ In v (reads_of insert g)) ->
  apply_conceal_insert insert next before g after = Some (l, next') ->
  block (before ++ g :: after) zs e = Some ws -> block l zs e = Some ws.
Proof.
  intros Hssa Hout C E. unfold apply_conceal_insert in C. destruct (conceal_insert insert next g) as [[[new m] next1]|] eqn:X; [|discriminate C]. injection C as <- <-.
  change (g :: after) with ([g] ++ after) in *. pose proof E as E'. unfold Generic_Spec.block in E'. rewrite run_app in E'. destruct (run before e) as [e0|] eqn:E0; [|discriminate E'].
  rewrite run_app in E'. destruct (run [g] e0) as [e1|] eqn:E1; [|discriminate E'].
  pose proof (ssa_prefix _ _ _ _ _ _ (ssa_split _ _ _ _ _ _ _ _ _ _ _ Hssa E0)) as Hs0.
  destruct (conceal_insert_sound V sem trips index truth (fun _ => True) insert next next1 g new m e0 e1 Hs0 X E1) as [_ (d & a & -> & Hd)].
  assert (Hid : forall l, (forall v, In v (flat_map (reads_of insert) l) -> ~ In v (reads_of insert g)) -> map (subst_dest insert [(d, a)]) l = l).
  { intros l Hl. apply map_eq_id. intros o Ho. apply subst_dest_id. intros v Hv. apply look_notin. cbn. intros [<- | []]. apply (Hl d); auto. apply in_flat_map; eauto. }
  rewrite !Hid.
  - rewrite <- (substs_nil after), <- (looks_nil zs). eapply proj1, sound_block; eauto. intros e2 e3 E2 Hs2 E3. eapply conceal_insert_sound; eauto.
  - intros v Hv. apply Hout. rewrite flat_map_app, in_app_iff. auto.
  - intros v Hv. apply Hout. rewrite flat_map_app, in_app_iff. auto.
Qed.
(** a rewrite of a block that preserves its meaning may take place inside an operation *)
Theorem C79_nested next l l' ys ys' o o' pre post zs e ws :
  (forall e ws, ssa next l ys e -> block l ys e = Some ws -> block l' ys' e = Some ws) -> map fst ys' = map fst ys ->
  nested l ys l' ys' o o' -> ssa next (pre ++ o :: post) zs e ->
  block (pre ++ o :: post) zs e = Some ws -> block (pre ++ o' :: post) zs e = Some ws.
Proof. intros. eapply nested_block; eauto. Qed.
Theorem C79_canonicalize alloc insert eligible next l zs next' l' zs' e ws :
  canonicalize alloc insert eligible next l zs next' l' zs' -> ssa next l zs e ->
  block l zs e = Some ws -> block l' zs' e = Some ws /\ ssa next' l' zs' e.
Proof.
  induction 1 as [|next pre g post zs new m next1 next2 l zs' Hw Hin Hc IH]; auto. intros Hssa E.
  enough (H : block (pre ++ new ++ map (subst m) post) (map (look m) zs) e = Some ws /\ ssa next1 (pre ++ new ++ map (subst m) post) (map (look m) zs) e) by (destruct H; auto).
  change (g :: post) with ([g] ++ post) in *. cbn [In] in Hin.
  destruct g as [| | |ins args body ys outs| |]; try (exfalso; cbn in Hin; intuition discriminate). destruct Hw as (W1 & W2 & W3 & W4).
  assert (Hgo : (forall e0 e1, run pre e = Some e0 -> ssa next [Generic ins args body ys outs] [] e0 -> run [Generic ins args body ys outs] e0 = Some e1 ->
     sound V sem trips index truth (fun v => In v (flat_map uses post ++ zs)) next next1 [Generic ins args body ys outs] new m e0) ->
     block (pre ++ new ++ map (subst m) post) (map (look m) zs) e = Some ws /\ ssa next1 (pre ++ new ++ map (subst m) post) (map (look m) zs) e)
    by (intro Hsound; eapply sound_block; eauto).
  destruct Hin as [H|[H|[H|[H|[H|[H|[]]]]]]]; try (eapply hoist_plaintext_block; eauto; fail); apply Hgo; intros e0 e1 E0 Hs E1.
  - eapply collapse_sound; eauto.
  - eapply remove_unused_yields_sound; eauto.
  - eapply remove_unused_args_sound; eauto.
  - eapply remove_public_args_sound; eauto.
  - eapply conceal_then_generic_sound; eauto. apply (concealed_facts V sem trips index truth [] pre next _ _ _ _ Hssa E0). intros x c [].
Qed.
End C79.

(** * Concrete programs *)
(** 0: addition; 1: the constant 7; 2: tensor.insert, of the scalar into the destination; 3: multiplication by 10;
    4: two results *)
Definition ex_sem (name : nat) (ws : list nat) : option (list nat) :=
  match name, ws with
  | 0, [a; b] => Some [a + b]
  | 1, [] => Some [7]
  | 2, [s; d; i] => Some [s + 2 * d + 3 * i]
  | 3, [a] => Some [10 * a]
  | 4, [a] => Some [a; S a]
  | _, _ => None
  end.
Definition ex_block := block nat ex_sem (fun n => n) (fun n => n) (fun n => negb (n =? 0)).
Definition sv (n : nat) : val := (true, n).
Definition pv (n : nat) : val := (false, n).
(** the secrets 0 and 1 hold 3 and 4, the plaintext 2 is 5 *)
Definition ex_env : env nat := fun v =>
  if veqb v (sv 0) then Some 3 else if veqb v (sv 1) then Some 4 else if veqb v (pv 2) then Some 5 else None.
Definition all_below (next : nat) (l : list val) : bool := forallb (fun v => snd v <? next) l.
Fixpoint no_repeats (l : list val) : bool := match l with [] => true | x :: l' => negb (mem x l') && no_repeats l' end.
Definition check (next : nat) (l : list op) (zs : list val) : bool :=
  no_repeats (flat_map defs l) && forallb (fun v => match ex_env v with None => true | _ => false end) (flat_map defs l) &&
  all_below next (flat_map defs l ++ flat_map uses l ++ zs) && (3 <=? next).
Lemma check_ssa next l zs : check next l zs = true -> ssa nat next l zs ex_env.
Proof.
  unfold check. intro H. apply andb_true_iff in H. destruct H as [H H4]. apply andb_true_iff in H. destruct H as [H H3]. apply andb_true_iff in H. destruct H as [H1 H2].
  apply Nat.leb_le in H4. unfold ssa. split; [|split; [|split]].
  - clear -H1. induction (flat_map defs l) as [|x d IH]; constructor; cbn [no_repeats] in H1; apply andb_true_iff in H1; destruct H1 as [Hx Hd]; auto.
    apply negb_true_iff in Hx. destruct (mem_spec x d); [discriminate Hx | auto].
  - intros v Hv. rewrite forallb_forall in H2. specialize (H2 v Hv). destruct (ex_env v); [discriminate H2 | auto].
  - intros v Hv. unfold all_below in H3. rewrite forallb_forall in H3. apply Nat.ltb_lt. auto.
  - intros v Hv. unfold ex_env in Hv. destruct (veqb_spec v (sv 0)); [subst; cbn; lia|]. destruct (veqb_spec v (sv 1)); [subst; cbn; lia|].
    destruct (veqb_spec v (pv 2)); [subst; cbn; lia|]. congruence.
Qed.
Ltac concrete := cbn; intros; repeat match goal with H : _ \/ _ |- _ => destruct H | H : False |- _ => destruct H end; subst; try discriminate; auto.

(** a generic without secret operands, used by another *)
Definition ex_collapse := Generic [pv 2] [pv 10] [Plain 1 [] [pv 11]; Plain 0 [pv 10; pv 11] [pv 12]] [pv 12; pv 10] [sv 13; sv 14].
Definition ex_rest := [Generic [sv 13; sv 0] [pv 20; pv 21] [Plain 0 [pv 20; pv 21] [pv 22]] [pv 22] [sv 23]].
Example C79_collapse_nonvacuous :
  ssa nat 30 ([] ++ ex_collapse :: ex_rest) [sv 23] ex_env /\
  collapse (fun _ => false) 30 ex_collapse =
    Some ([Plain 1 [] [pv 11]; Plain 0 [pv 2; pv 11] [pv 12]; Conceal (sv 30) (pv 12); Conceal (sv 31) (pv 2)], [(sv 13, sv 30); (sv 14, sv 31)], 32) /\
  ex_block ([] ++ ex_collapse :: ex_rest) [sv 23] ex_env = Some [15].
Proof. split; [apply check_ssa; reflexivity | split; reflexivity]. Qed.
Example C79_remove_unused_yields_nonvacuous :
  remove_unused_yields (flat_map uses ex_rest ++ [sv 23]) 30 ex_collapse =
    Some ([Generic [pv 2] [pv 10] [Plain 1 [] [pv 11]; Plain 0 [pv 10; pv 11] [pv 12]] [pv 12] [sv 13]], [], 30).
Proof. reflexivity. Qed.
Example C79_remove_public_args_nonvacuous :
  remove_public_args 30 ex_collapse =
    Some ([Generic [] [] [Plain 1 [] [pv 11]; Plain 0 [pv 2; pv 11] [pv 12]] [pv 12; pv 2] [sv 13; sv 14]], [], 30).
Proof. reflexivity. Qed.
(** an unused argument and one that is passed through *)
Definition ex_through := Generic [pv 2; sv 0; sv 1] [pv 10; pv 11; pv 12] [Plain 0 [pv 12; pv 12] [pv 15]] [pv 11; pv 15] [sv 13; sv 14].
Example C79_remove_unused_args_nonvacuous :
  ssa nat 30 ([] ++ ex_through :: [Reveal (pv 20) (sv 13)]) [pv 20; sv 14] ex_env /\
  (forall x a, In (x, a) (combine [pv 2; sv 0; sv 1] [pv 10; pv 11; pv 12]) -> In a [pv 11; pv 15] -> secret x = true) /\
  remove_unused_args 30 ex_through =
    Some ([Generic [sv 0; sv 1] [pv 11; pv 12] [Plain 0 [pv 12; pv 12] [pv 15]] [pv 15] [sv 14]], [(sv 13, sv 0)], 30) /\
  ex_block ([] ++ ex_through :: [Reveal (pv 20) (sv 13)]) [pv 20; sv 14] ex_env = Some [3; 8].
Proof.
  split; [apply check_ssa; reflexivity | split; [|split; reflexivity]]. cbn. unfold sv, pv.
  intros x a H H'. repeat destruct H as [H|H]; try (injection H as <- <-; auto); [|destruct H]. destruct H' as [H'|[H'|[]]]; discriminate H'.
Qed.
(** ... but a plaintext passed through is not concealed any more: the program has a type error *)
Definition ex_plain_through := Generic [pv 2; sv 0] [pv 10; pv 11] [Plain 3 [pv 11] [pv 12]] [pv 10; pv 12] [sv 13; sv 14].
Theorem C79_remove_unused_args_refuted :
  exists next pre g post zs new m next' ws,
    ssa nat next (pre ++ g :: post) zs ex_env /\ forallb secret (results g) = true /\ remove_unused_args next g = Some (new, m, next') /\
    ex_block (pre ++ g :: post) zs ex_env = Some ws /\ ex_block (pre ++ new ++ map (subst m) post) (map (look m) zs) ex_env = None.
Proof.
  exists 30, [], ex_plain_through, [Reveal (pv 20) (sv 13)], [pv 20], [Generic [pv 2; sv 0] [pv 10; pv 11] [Plain 3 [pv 11] [pv 12]] [pv 12] [sv 14]], [(sv 13, pv 2)], 30, [5].
  split; [apply check_ssa; reflexivity | repeat split; reflexivity].
Qed.
Definition ex_dedupe := Generic [sv 0] [pv 10] [Plain 3 [pv 10] [pv 11]] [pv 11; pv 10; pv 11] [sv 13; sv 14; sv 15].
Example C79_dedupe_nonvacuous :
  ssa nat 30 ([] ++ ex_dedupe :: [Reveal (pv 20) (sv 15)]) [pv 20; sv 13; sv 15] ex_env /\
  dedupe_yields 30 ex_dedupe = Some ([Generic [sv 0] [pv 10] [Plain 3 [pv 10] [pv 11]] [pv 11; pv 10] [sv 13; sv 14]], [(sv 15, sv 13)], 30) /\
  ex_block ([] ++ ex_dedupe :: [Reveal (pv 20) (sv 15)]) [pv 20; sv 13; sv 15] ex_env = Some [30; 30; 30].
Proof. split; [apply check_ssa; reflexivity | split; reflexivity]. Qed.
(** an ambient value, also used inside a loop *)
Definition ex_ambient :=
  Generic [sv 0] [pv 10] [For (pv 2) [pv 10] (pv 11) [pv 12] [Plain 0 [pv 12; pv 9] [pv 14]] [pv 14] [pv 15]] [pv 15] [sv 16].
Example C79_capture_ambient_nonvacuous :
  ssa nat 30 ([Plain 1 [] [pv 9]] ++ ex_ambient :: []) [sv 16] ex_env /\
  (forall v, In v (flat_map uses [For (pv 2) [pv 10] (pv 11) [pv 12] [Plain 0 [pv 12; pv 9] [pv 14]] [pv 14] [pv 15]] ++ [pv 15]) ->
     ~ In v ([pv 10] ++ flat_map defs [For (pv 2) [pv 10] (pv 11) [pv 12] [Plain 0 [pv 12; pv 9] [pv 14]] [pv 14] [pv 15]]) ->
     public v = true /\ (ex_env v <> None \/ In v (flat_map results [Plain 1 [] [pv 9]]))) /\
  capture_ambient 30 ex_ambient =
    Some ([Generic [sv 0; pv 9] [pv 10; pv 30] [For (pv 2) [pv 10] (pv 11) [pv 12] [Plain 0 [pv 12; pv 30] [pv 14]] [pv 14] [pv 15]] [pv 15] [sv 16]], [], 31) /\
  ex_block ([Plain 1 [] [pv 9]] ++ ex_ambient :: []) [sv 16] ex_env = Some [38].
Proof.
  split; [apply check_ssa; reflexivity | split; [|split; reflexivity]]. cbn. unfold sv, pv.
  intros v H Hn. repeat destruct H as [<- | H]; try (destruct H; fail); try (exfalso; tauto); cbn; (split; [reflexivity|]); try (left; discriminate); auto.
Qed.
(** a secret from the ambient scope becomes a secret block argument *)
Definition ex_secret_ambient := Generic [sv 0] [pv 10] [Reveal (pv 11) (sv 1); Plain 0 [pv 10; pv 11] [pv 12]] [pv 12] [sv 13].
Theorem C79_capture_ambient_refuted :
  exists next g new m next' ws,
    ssa nat next [g] (results g) ex_env /\ capture_ambient next g = Some (new, m, next') /\
    ex_block [g] (results g) ex_env = Some ws /\ ex_block new (results g) ex_env = None.
Proof.
  exists 30, ex_secret_ambient, [Generic [sv 0; sv 1] [pv 10; sv 30] [Reveal (pv 11) (sv 30); Plain 0 [pv 10; pv 11] [pv 12]] [pv 12] [sv 13]], [], 31, [7].
  split; [apply check_ssa; reflexivity | repeat split; reflexivity].
Qed.
(** the second generic uses a result of the first, an operand of the first and an operand of its own *)
Definition ex_first := Generic [sv 0] [pv 10] [Plain 3 [pv 10] [pv 11]] [pv 11] [sv 12].
Definition ex_second := Generic [sv 12; sv 0; sv 1] [pv 20; pv 21; pv 22] [Plain 0 [pv 20; pv 21] [pv 23]; Plain 0 [pv 23; pv 22] [pv 24]] [pv 24; pv 21] [sv 25; sv 26].
Example C79_merge_nonvacuous :
  ssa nat 30 ([] ++ ex_first :: ex_second :: []) [sv 25; sv 12; sv 26] ex_env /\
  (forall v, In v (flat_map uses [Plain 0 [pv 20; pv 21] [pv 23]; Plain 0 [pv 23; pv 22] [pv 24]] ++ [pv 24; pv 21]) -> ~ In v [sv 12]) /\
  merge 30 ex_first ex_second =
    Some ([Generic [sv 0; sv 1] [pv 10; pv 30] [Plain 3 [pv 10] [pv 11]; Plain 0 [pv 11; pv 10] [pv 23]; Plain 0 [pv 23; pv 30] [pv 24]]
             [pv 11; pv 24; pv 10] [sv 12; sv 25; sv 26]], [], 31) /\
  ex_block ([] ++ ex_first :: ex_second :: []) [sv 25; sv 12; sv 26] ex_env = Some [37; 30; 3].
Proof.
  split; [apply check_ssa; reflexivity | split; [|split; reflexivity]]. cbn. unfold sv, pv. intros v H [H'|[]]; subst. intuition discriminate.
Qed.
(** the body of the second generic captures a result of the first *)
Definition ex_capturing := Generic [sv 1] [pv 20] [Reveal (pv 21) (sv 12); Plain 0 [pv 20; pv 21] [pv 22]] [pv 22] [sv 23].
Theorem C79_merge_refuted :
  exists next g1 g2 new m next' ws,
    ssa nat next [g1; g2] (results g2) ex_env /\ merge next g1 g2 = Some (new, m, next') /\
    ex_block [g1; g2] (results g2) ex_env = Some ws /\ ex_block new (results g2) ex_env = None.
Proof.
  exists 30, ex_first, ex_capturing,
    [Generic [sv 0; sv 1] [pv 10; pv 30] [Plain 3 [pv 10] [pv 11]; Reveal (pv 21) (sv 12); Plain 0 [pv 30; pv 21] [pv 22]] [pv 11; pv 22] [sv 12; sv 23]], [], 31, [34].
  split; [apply check_ssa; reflexivity | repeat split; reflexivity].
Qed.
Definition named (n : nat) (o : op) : bool := match o with Plain m _ _ => m =? n | _ => false end.
Definition ex_hoist := Generic [sv 0; sv 1] [pv 10; pv 11] [Plain 3 [pv 10] [pv 12]; Plain 0 [pv 11; pv 11] [pv 13]; Plain 0 [pv 12; pv 13] [pv 14]] [pv 14] [sv 15].
Example C79_hoist_before_nonvacuous :
  ssa nat 30 ([] ++ ex_hoist :: []) [sv 15] ex_env /\
  (forall o, In o ([Plain 3 [pv 10] [pv 12]; Plain 0 [pv 11; pv 11] [pv 13]; Plain 0 [pv 12; pv 13] [pv 14]]) -> named 0 o = true -> forallb public (results o) = true) /\
  (forall o v, In o ([Plain 3 [pv 10] [pv 12]; Plain 0 [pv 11; pv 11] [pv 13]; Plain 0 [pv 12; pv 13] [pv 14]]) -> named 0 o = true -> In v (uses o) -> In v (operands o) \/ ~ In v (flat_map results [Plain 3 [pv 10] [pv 12]; Plain 0 [pv 11; pv 11] [pv 13]; Plain 0 [pv 12; pv 13] [pv 14]])) /\
  hoist_before (named 0) 30 ex_hoist =
    Some ([Generic [sv 1] [pv 30] [Plain 0 [pv 30; pv 30] [pv 13]] [pv 13] [sv 31];
           Generic [sv 0; sv 1; sv 31] [pv 10; pv 11; pv 32] [Plain 3 [pv 10] [pv 12]; Plain 0 [pv 12; pv 32] [pv 14]] [pv 14] [sv 15]], [], 33) /\
  ex_block ([] ++ ex_hoist :: []) [sv 15] ex_env = Some [38].
Proof. split; [apply check_ssa; reflexivity | split; [concrete | split; [concrete | split; reflexivity]]]. Qed.
(** the loop reads, in its body, a value computed before it in the generic *)
Definition is_loop (o : op) : bool := match o with For _ _ _ _ _ _ _ => true | _ => false end.
Definition ex_loop :=
  Generic [sv 0; pv 2] [pv 10; pv 11] [Plain 3 [pv 10] [pv 12]; For (pv 11) [pv 10] (pv 13) [pv 14] [Plain 0 [pv 14; pv 12] [pv 15]] [pv 15] [pv 16]] [pv 16] [sv 17].
Theorem C79_hoist_before_refuted :
  exists listed next g new m next' ws,
    ssa nat next [g] (results g) ex_env /\ hoist_before listed next g = Some (new, m, next') /\
    ex_block [g] (results g) ex_env = Some ws /\ ex_block new (results g) ex_env = None.
Proof.
  exists is_loop, 30, ex_loop. eexists _, _, _, _. split; [apply check_ssa; reflexivity|]. split; [vm_compute; reflexivity|]. split; vm_compute; reflexivity.
Qed.
(** two operations on plaintext operands, the second of which has a plaintext from outside *)
Definition ex_plaintext :=
  Generic [sv 0; pv 2] [pv 10; pv 11] [Plain 0 [pv 11; pv 11] [pv 12]; Plain 0 [pv 10; pv 12] [pv 13]; Plain 0 [pv 11; pv 9] [pv 14]; Plain 0 [pv 13; pv 14] [pv 15]] [pv 15] [sv 16].
Example C79_hoist_plaintext_nonvacuous :
  ssa nat 30 ([Plain 1 [] [pv 9]] ++ ex_plaintext :: []) [sv 16] ex_env /\
  (forall o, In o ([Plain 0 [pv 11; pv 11] [pv 12]; Plain 0 [pv 10; pv 12] [pv 13]; Plain 0 [pv 11; pv 9] [pv 14]; Plain 0 [pv 13; pv 14] [pv 15]]) -> named 0 o = true -> forallb public (results o) = true) /\
  (forall o v, In o ([Plain 0 [pv 11; pv 11] [pv 12]; Plain 0 [pv 10; pv 12] [pv 13]; Plain 0 [pv 11; pv 9] [pv 14]; Plain 0 [pv 13; pv 14] [pv 15]]) -> In v (uses o) -> ~ In v (results o)) /\
  hoist_plaintext (named 0) 30 ex_plaintext =
    Some ([Generic [pv 2] [pv 30] [Plain 0 [pv 30; pv 30] [pv 12]] [pv 12] [sv 31];
           Generic [pv 2] [pv 33] [Plain 0 [pv 33; pv 9] [pv 14]] [pv 14] [sv 34];
           Generic [sv 0; pv 2; sv 31; sv 34] [pv 10; pv 11; pv 32; pv 35] [Plain 0 [pv 10; pv 32] [pv 13]; Plain 0 [pv 13; pv 35] [pv 15]] [pv 15] [sv 16]], [], 36) /\
  ex_block ([Plain 1 [] [pv 9]] ++ ex_plaintext :: []) [sv 16] ex_env = Some [25].
Proof. split; [apply check_ssa; reflexivity | split; [concrete | split; [|split; reflexivity]]].
  cbn. intros o v Ho Hv Hr. repeat (destruct Ho as [<- | Ho]; [cbn in Hv, Hr; destruct Hr as [<- | []]; repeat destruct Hv as [Hv|Hv]; (discriminate Hv || destruct Hv)|]). destruct Ho. Qed.
Definition ex_last := Generic [sv 0; sv 1] [pv 10; pv 11] [Plain 3 [pv 10] [pv 12]; Plain 0 [pv 12; pv 11] [pv 13]] [pv 13; pv 10] [sv 14; sv 15].
Example C79_hoist_after_nonvacuous :
  ssa nat 30 ([] ++ ex_last :: [Reveal (pv 20) (sv 14)]) [pv 20; sv 15] ex_env /\
  (forall o, In o ([Plain 3 [pv 10] [pv 12]; Plain 0 [pv 12; pv 11] [pv 13]]) -> named 0 o = true -> forallb public (operands o ++ results o) = true) /\
  (forall o v, In o ([Plain 3 [pv 10] [pv 12]; Plain 0 [pv 12; pv 11] [pv 13]]) -> named 0 o = true -> In v (uses o) -> In v (operands o) \/ ~ In v ([pv 10; pv 11] ++ flat_map results [Plain 3 [pv 10] [pv 12]; Plain 0 [pv 12; pv 11] [pv 13]])) /\
  NoDup [pv 13; pv 10] /\ hoist_after (named 0) 30 ex_last =
    Some ([Generic [sv 0; sv 1] [pv 10; pv 11] [Plain 3 [pv 10] [pv 12]] [pv 10; pv 12; pv 11] [sv 15; sv 30; sv 31];
           Generic [sv 30; sv 1] [pv 32; pv 33] [Plain 0 [pv 32; pv 33] [pv 13]] [pv 13] [sv 34]], [(sv 14, sv 34)], 35) /\
  ex_block ([] ++ ex_last :: [Reveal (pv 20) (sv 14)]) [pv 20; sv 15] ex_env = Some [34; 3].
Proof. split; [apply check_ssa; reflexivity | split; [concrete | split; [concrete | split; [repeat constructor; cbn; intuition (unfold pv in *; congruence) | split; reflexivity]]]]. Qed.
(** a result that is yielded twice: the second copy is lost *)
Definition ex_twice := Generic [sv 0; sv 1] [pv 10; pv 11] [Plain 3 [pv 10] [pv 12]; Plain 0 [pv 12; pv 11] [pv 13]] [pv 13; pv 13] [sv 14; sv 15].
Theorem C79_hoist_after_twice_refuted :
  exists listed next g new m next' ws,
    ssa nat next [g] (results g) ex_env /\ forallb secret (results g) = true /\ hoist_after listed next g = Some (new, m, next') /\
    ex_block [g] (results g) ex_env = Some ws /\ ex_block new (map (look m) (results g)) ex_env = None.
Proof.
  exists (named 0), 30, ex_twice. eexists _, _, _, _. split; [apply check_ssa; reflexivity|]. split; [reflexivity|]. split; [vm_compute; reflexivity|]. split; vm_compute; reflexivity.
Qed.
(** a block argument read in the body of the loop: the loop leaves the generic without it *)
Definition ex_last_loop :=
  Generic [sv 0; pv 2] [pv 10; pv 11] [Plain 3 [pv 10] [pv 12]; For (pv 11) [pv 12] (pv 13) [pv 14] [Plain 0 [pv 14; pv 10] [pv 15]] [pv 15] [pv 16]] [pv 16] [sv 17].
Theorem C79_hoist_after_capture_refuted :
  exists listed next g new m next' ws,
    ssa nat next [g] (results g) ex_env /\ forallb secret (results g) = true /\ hoist_after listed next g = Some (new, m, next') /\
    ex_block [g] (results g) ex_env = Some ws /\ ex_block new (map (look m) (results g)) ex_env = None.
Proof.
  exists is_loop, 30, ex_last_loop. eexists _, _, _, _. split; [apply check_ssa; reflexivity|]. split; [reflexivity|]. split; [vm_compute; reflexivity|]. split; vm_compute; reflexivity.
Qed.
(** an operation without uses is chosen although it cannot be extracted *)
Definition ex_dead := Generic [sv 0; sv 1] [pv 10; pv 11] [Plain 4 [pv 10] [pv 12; pv 13]; Plain 0 [pv 12; pv 11] [pv 14]] [pv 12] [sv 15].
Theorem C79_hoist_after_unused_refuted :
  exists listed next ins args body ys outs i,
    let g := Generic ins args body ys outs in
    ssa nat next [g] (results g) ex_env /\ index_where (fun o => listed o && yielded_only body o) body = Some i /\
    ex_block [g] (results g) ex_env <> None /\ extract_after next i g = None.
Proof.
  exists (named 0), 30, [sv 0; sv 1], [pv 10; pv 11], [Plain 4 [pv 10] [pv 12; pv 13]; Plain 0 [pv 12; pv 11] [pv 14]], [pv 12], [sv 15], 1.
  cbv zeta. split; [apply check_ssa; reflexivity|]. split; [reflexivity|]. split; [vm_compute; discriminate | reflexivity].
Qed.
Definition ex_concealed := Generic [sv 8; sv 0] [pv 10; pv 11] [Plain 0 [pv 10; pv 11] [pv 12]] [pv 12] [sv 13].
Example C79_conceal_then_generic_nonvacuous :
  ssa nat 30 ([Conceal (sv 8) (pv 2)] ++ ex_concealed :: []) [sv 13] ex_env /\
  conceal_then_generic (Nat.eqb 2) ([] ++ [Conceal (sv 8) (pv 2)]) 30 ex_concealed =
    Some ([Generic [pv 2; sv 0] [pv 10; pv 11] [Plain 0 [pv 10; pv 11] [pv 12]] [pv 12] [sv 13]], [], 30) /\
  ex_block ([Conceal (sv 8) (pv 2)] ++ ex_concealed :: []) [sv 13] ex_env = Some [8].
Proof. split; [apply check_ssa; reflexivity | split; reflexivity]. Qed.
Definition ex_insert := Generic [sv 0] [pv 10] [Plain 1 [] [pv 11]; Plain 2 [pv 10; pv 2; pv 11] [pv 12]] [pv 12] [sv 13].
Example C79_conceal_insert_nonvacuous :
  ssa nat 30 ([] ++ ex_insert :: []) [sv 13] ex_env /\
  apply_conceal_insert (Nat.eqb 2) 30 [] ex_insert [] =
    Some ([Conceal (sv 30) (pv 2); Generic [sv 0; sv 30] [pv 10; pv 31] [Plain 1 [] [pv 11]; Plain 2 [pv 10; pv 31; pv 11] [pv 12]] [pv 12] [sv 13]], 32) /\
  ex_block ([] ++ ex_insert :: []) [sv 13] ex_env = Some [34].
Proof. split; [apply check_ssa; reflexivity | split; reflexivity]. Qed.
(** another tensor.insert with the same destination gets the block argument, which it cannot see *)
Theorem C79_conceal_insert_refuted :
  exists insert next before g after zs l next' ws,
    ssa nat next (before ++ g :: after) zs ex_env /\ apply_conceal_insert insert next before g after = Some (l, next') /\
    ex_block (before ++ g :: after) zs ex_env = Some ws /\ ex_block l zs ex_env = None.
Proof.
  exists (Nat.eqb 2), 30, [], ex_insert, [Plain 1 [] [pv 14]; Plain 2 [pv 14; pv 2; pv 14] [pv 15]], [sv 13; pv 15].
  eexists _, _, _. split; [apply check_ssa; reflexivity|]. split; [vm_compute; reflexivity|]. split; vm_compute; reflexivity.
Qed.
(** a generic inside a loop, rewritten there *)
Example C79_nested_nonvacuous :
  let l := [Generic [pv 2; sv 31] [pv 10; pv 11] [Plain 0 [pv 10; pv 11] [pv 12]] [pv 12] [sv 13]] in
  let l' := [Generic [sv 31] [pv 11] [Plain 0 [pv 2; pv 11] [pv 12]] [pv 12] [sv 13]] in
  remove_public_args 40 (Generic [pv 2; sv 31] [pv 10; pv 11] [Plain 0 [pv 10; pv 11] [pv 12]] [pv 12] [sv 13]) = Some (l', [], 40) /\
  nested l [sv 13] l' [sv 13] (For (pv 2) [sv 0] (pv 30) [sv 31] l [sv 13] [sv 32]) (For (pv 2) [sv 0] (pv 30) [sv 31] l' [sv 13] [sv 32]) /\
  ssa nat 40 ([] ++ For (pv 2) [sv 0] (pv 30) [sv 31] l [sv 13] [sv 32] :: []) [sv 32] ex_env /\
  ex_block ([] ++ For (pv 2) [sv 0] (pv 30) [sv 31] l [sv 13] [sv 32] :: []) [sv 32] ex_env = Some [28].
Proof. cbv zeta. split; [reflexivity|]. split; [constructor|]. split; [apply check_ssa; reflexivity | reflexivity]. Qed.
(** two steps: the plaintext operand goes, then the unused result *)
Definition ex_both := Generic [pv 2; sv 0] [pv 10; pv 11] [Plain 0 [pv 10; pv 11] [pv 12]] [pv 12; pv 11] [sv 13; sv 14].
Example C79_canonicalize_nonvacuous :
  ssa nat 30 [ex_both] [sv 13] ex_env /\ ex_block [ex_both] [sv 13] ex_env = Some [8] /\
  canonicalize (fun _ => false) (fun _ => false) (fun _ => false) 30 [ex_both] [sv 13] 30
    [Generic [sv 0] [pv 11] [Plain 0 [pv 2; pv 11] [pv 12]] [pv 12] [sv 13]] [sv 13].
Proof.
  split; [apply check_ssa; reflexivity|]. split; [reflexivity|].
  apply (canonicalize_step _ _ _ 30 [] ex_both [] [sv 13] [Generic [sv 0] [pv 11] [Plain 0 [pv 2; pv 11] [pv 12]] [pv 12; pv 11] [sv 13; sv 14]] [] 30).
  - cbn. unfold sv, pv. repeat split; auto; try discriminate.
    + intros x a [H|[H|[]]] H'; injection H as <- <-; auto. destruct H' as [H'|[H'|[]]]; discriminate H'.
    + intros o v [<- | []]; cbn. intuition (subst; discriminate).
  - right; right; right; left. reflexivity.
  - apply (canonicalize_step _ _ _ 30 [] (Generic [sv 0] [pv 11] [Plain 0 [pv 2; pv 11] [pv 12]] [pv 12; pv 11] [sv 13; sv 14]) [] [sv 13]
             [Generic [sv 0] [pv 11] [Plain 0 [pv 2; pv 11] [pv 12]] [pv 12] [sv 13]] [] 30).
    + cbn. unfold sv, pv. repeat split; auto; try discriminate.
      * intros x a [H|[]] H'; injection H as <- <-; auto.
      * intros o v [<- | []]; cbn. intuition (subst; discriminate).
    + right; left. reflexivity.
    + apply canonical.
Qed.

Print Assumptions C79_collapse.
Print Assumptions C79_remove_unused_yields.
Print Assumptions C79_remove_unused_args_partial.
Print Assumptions C79_remove_unused_args_refuted.
Print Assumptions C79_remove_public_args.
Print Assumptions C79_dedupe.
Print Assumptions C79_capture_ambient_partial.
Print Assumptions C79_capture_ambient_refuted.
Print Assumptions C79_merge_partial.
Print Assumptions C79_merge_refuted.
Print Assumptions C79_hoist_before_partial.
Print Assumptions C79_hoist_before_refuted.
Print Assumptions C79_hoist_plaintext.
Print Assumptions C79_hoist_after_partial.
Print Assumptions C79_hoist_after_twice_refuted.
Print Assumptions C79_hoist_after_capture_refuted.
Print Assumptions C79_hoist_after_unused_refuted.
Print Assumptions C79_conceal_then_generic.
Print Assumptions C79_conceal_insert_partial.
Print Assumptions C79_conceal_insert_refuted.
Print Assumptions C79_nested.
Print Assumptions C79_canonicalize.
