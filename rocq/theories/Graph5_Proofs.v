(** Contraction of an edge. *)
From Coq Require Import List Bool Arith Lia Sorted Permutation.
From Verif Require Import Graph_Model Graph_Proofs.
Import ListNotations.
Open Scope nat_scope.

Lemma set_erase_In x y l : In y (set_erase x l) <-> In y l /\ y <> x.
Proof. unfold set_erase. rewrite filter_In, negb_true_iff, Nat.eqb_neq. reflexivity. Qed.
Lemma filter_sorted (f : nat -> bool) l : StronglySorted lt l -> StronglySorted lt (filter f l).
Proof.
  induction 1 as [|a l H IH HF]; cbn; [constructor|]. destruct (f a); auto. constructor; auto.
  rewrite Forall_forall in *. intros y Hy. apply filter_In in Hy. apply HF; tauto.
Qed.
Lemma set_erase_sorted x l : StronglySorted lt l -> StronglySorted lt (set_erase x l).
Proof. apply filter_sorted. Qed.

(** adding several edges *)
Lemma add_edge_In s t g u v : wf g -> In s (verts g) -> In t (verts g) ->
  (In v (outE (snd (add_edge s t g)) u) <-> In v (outE g u) \/ (u = s /\ v = t)) /\ verts (snd (add_edge s t g)) = verts g.
Proof.
  intros W Hs Ht. unfold add_edge. apply set_count_In in Hs, Ht. rewrite Hs, Ht. cbn [negb orb snd verts outE]. split; auto. unfold upd.
  destruct (Nat.eqb_spec u s) as [->|]; [rewrite set_insert_In; intuition|intuition].
Qed.
Lemma add_outs s l : forall g, wf g -> In s (verts g) -> incl l (verts g) ->
  let g' := fold_left (fun g succ => if negb (succ =? s) then snd (add_edge s succ g) else g) l g in
  wf g' /\ verts g' = verts g /\ forall u v, In v (outE g' u) <-> In v (outE g u) \/ (u = s /\ v <> s /\ In v l).
Proof.
  induction l as [|x l IH]; intros g W Hs Hl; cbn [fold_left].
  - split; auto. split; auto. intros. cbn. tauto.
  - destruct (Nat.eqb_spec x s) as [->|Hx]; cbn [negb].
    + destruct (IH g W Hs ltac:(intros y Hy; apply Hl; right; auto)) as (A & B & C). split; auto. split; auto. intros u v. rewrite C. cbn. intuition congruence.
    + assert (Hx' : In x (verts g)) by (apply Hl; left; auto). destruct (add_edge_In s x g 0 0 W Hs Hx') as [_ V].
      destruct (IH (snd (add_edge s x g))) as (A & B & C); [apply wf_add_edge; auto|rewrite V; auto|rewrite V; intros y Hy; apply Hl; right; auto|].
      split; auto. split; [congruence|]. intros u v. rewrite C. rewrite (proj1 (add_edge_In s x g u v W Hs Hx')). cbn. intuition congruence.
Qed.
Lemma add_ins s l : forall g, wf g -> In s (verts g) -> incl l (verts g) ->
  let g' := fold_left (fun g pred => if negb (pred =? s) then snd (add_edge pred s g) else g) l g in
  wf g' /\ verts g' = verts g /\ forall u v, In v (outE g' u) <-> In v (outE g u) \/ (v = s /\ u <> s /\ In u l).
Proof.
  induction l as [|x l IH]; intros g W Hs Hl; cbn [fold_left].
  - split; auto. split; auto. intros. cbn. tauto.
  - destruct (Nat.eqb_spec x s) as [->|Hx]; cbn [negb].
    + destruct (IH g W Hs ltac:(intros y Hy; apply Hl; right; auto)) as (A & B & C). split; auto. split; auto. intros u v. rewrite C. cbn. intuition congruence.
    + assert (Hx' : In x (verts g)) by (apply Hl; left; auto). destruct (add_edge_In x s g 0 0 W Hx' Hs) as [_ V].
      destruct (IH (snd (add_edge x s g))) as (A & B & C); [apply wf_add_edge; auto|rewrite V; auto|rewrite V; intros y Hy; apply Hl; right; auto|].
      split; auto. split; [congruence|]. intros u v. rewrite C. rewrite (proj1 (add_edge_In x s g u v W Hx' Hs)). cbn. intuition congruence.
Qed.
Lemma erase_ins t l : forall g,
  let g' := fold_left (erase_in t) l g in
  verts g' = verts g /\ outE g' = outE g /\ (forall v, StronglySorted lt (inE g v) -> StronglySorted lt (inE g' v)) /\
  forall u v, In u (inE g' v) <-> In u (inE g v) /\ ~ (u = t /\ In v l).
Proof.
  induction l as [|x l IH]; intros g; cbn [fold_left].
  - cbn. intuition.
  - destruct (IH (erase_in t g x)) as (A & B & S & C). split; auto. split; auto. split.
    + intros v Hv. apply S. unfold erase_in. cbn. unfold upd. destruct (Nat.eqb_spec v x) as [->|]; auto. apply set_erase_sorted. auto.
    + intros u v. rewrite C. unfold erase_in at 1. cbn [inE]. unfold upd. cbn [In]. destruct (Nat.eqb_spec v x) as [->|]; [rewrite set_erase_In|]; intuition congruence.
Qed.
Lemma erase_outs t l : forall g,
  let g' := fold_left (erase_out t) l g in
  verts g' = verts g /\ inE g' = inE g /\ (forall v, StronglySorted lt (outE g v) -> StronglySorted lt (outE g' v)) /\
  forall u v, In v (outE g' u) <-> In v (outE g u) /\ ~ (v = t /\ In u l).
Proof.
  induction l as [|x l IH]; intros g; cbn [fold_left].
  - cbn. intuition.
  - destruct (IH (erase_out t g x)) as (A & B & S & C). split; auto. split; auto. split.
    + intros v Hv. apply S. unfold erase_out. cbn. unfold upd. destruct (Nat.eqb_spec v x) as [->|]; auto. apply set_erase_sorted. auto.
    + intros u v. rewrite C. unfold erase_out at 1. cbn [outE]. unfold upd. cbn [In]. destruct (Nat.eqb_spec u x) as [->|]; [rewrite set_erase_In|]; intuition congruence.
Qed.

Theorem contract_ok s t g : wf g -> In t (outE g s) ->
  let g' := snd (contract_edge s t g) in
  wf g' /\ (forall v, In v (verts g') <-> In v (verts g) /\ v <> t) /\
  forall u v, In v (outE g' u) <->
    u <> t /\ v <> t /\ (In v (outE g u) \/ (u = s /\ v <> s /\ In v (outE g t)) \/ (v = s /\ u <> s /\ In t (outE g u))).
Proof.
  intros W Hst. unfold contract_edge. rewrite (proj2 (has_edge_In g s t W) Hst). cbn [negb snd].
  destruct (wf_incl g W _ _ Hst) as [Hs Ht].
  set (g1 := fold_left _ (edges_out_of g t) g).
  destruct (add_outs s (edges_out_of g t) g W Hs) as (W1 & V1 & E1); [rewrite edges_out_eq by auto; intros y Hy; apply (wf_incl g W _ _ Hy)|]. fold g1 in W1, V1, E1.
  rewrite (edges_out_eq g t W) in E1.
  set (g2 := fold_left _ (edges_into g1 t) g1).
  destruct (add_ins s (edges_into g1 t) g1 W1) as (W2 & V2 & E2); [rewrite V1; auto|rewrite edges_in_eq by auto; intros y Hy; apply (wf_sym g1 W1) in Hy; apply (wf_incl g1 W1 _ _ Hy)|].
  fold g2 in W2, V2, E2. rewrite (edges_in_eq g1 t W1) in E2.
  set (g3 := erase_out t g2 s).
  assert (V3 : verts g3 = verts g) by (unfold g3, erase_out; cbn; congruence).
  assert (O3 : edges_out_of g3 t = outE g3 t) by (unfold edges_out_of; rewrite V3; apply set_count_In in Ht; rewrite Ht; auto).
  rewrite O3. destruct (erase_ins t (outE g3 t) g3) as (V4 & O4 & S4 & I4). set (g4 := fold_left (erase_in t) (outE g3 t) g3) in *.
  assert (Q4 : edges_into g4 t = inE g4 t) by (unfold edges_into; rewrite V4, V3; apply set_count_In in Ht; rewrite Ht; auto).
  rewrite Q4. destruct (erase_outs t (inE g4 t) g4) as (V5 & I5 & S5 & O5). set (g5 := fold_left (erase_out t) (inE g4 t) g4) in *.
  assert (E3 : forall u v, In v (outE g3 u) <-> In v (outE g2 u) /\ ~ (u = s /\ v = t)).
  { intros u v. unfold g3, erase_out. cbn [outE]. unfold upd. destruct (Nat.eqb_spec u s) as [->|]; [rewrite set_erase_In|]; intuition. }
  assert (I3 : inE g3 = inE g2) by reflexivity.
  assert (Out : forall u v, In v (outE (snd (true, {| verts := set_erase t (verts g5); outE := upd (outE g5) t []; inE := upd (inE g5) t [] |})) u) <->
     u <> t /\ v <> t /\ In v (outE g2 u)).
  { intros u v. cbn [snd outE]. unfold upd. destruct (Nat.eqb_spec u t) as [->|Hu]; [cbn; intuition|]. rewrite O5, O4, E3, I4, I3. rewrite <- (wf_sym g2 W2). split.
    - intros [[A B] C]. split; auto. split; auto. intros ->. apply C. split; auto. split; auto. intros [-> _]. contradiction.
    - intros (_ & B & C). intuition. }
  assert (Inn : forall u v, In u (inE (snd (true, {| verts := set_erase t (verts g5); outE := upd (outE g5) t []; inE := upd (inE g5) t [] |})) v) <->
     u <> t /\ v <> t /\ In v (outE g2 u)).
  { intros u v. cbn [snd inE]. unfold upd. destruct (Nat.eqb_spec v t) as [->|Hv]; [cbn; intuition|]. rewrite I5, I4, I3, E3. rewrite <- (wf_sym g2 W2). split.
    - intros [A B]. split; [|auto]. intros ->. apply B. split; auto. split; auto. intros [_ C]. contradiction.
    - intros (A & B & C). intuition. }
  cbn [snd] in Out, Inn. split; [split; cbn [verts]|split].
  - apply set_erase_sorted. rewrite V5, V4, V3. apply (wf_verts g W).
  - intros v. cbn [outE]. unfold upd. destruct (v =? t); [constructor|]. apply S5. rewrite O4. unfold g3, erase_out. cbn. unfold upd. destruct (v =? s); [apply set_erase_sorted|]; apply (wf_out g2 W2).
  - intros v. cbn [inE]. unfold upd. destruct (v =? t); [constructor|]. rewrite I5. apply S4. rewrite I3. apply (wf_in g2 W2).
  - intros u v. rewrite Out, Inn. reflexivity.
  - intros u v H. apply Out in H. destruct H as (A & B & C). apply (wf_incl g2 W2) in C. rewrite !set_erase_In, V5, V4, V3. rewrite V2, V1 in C. tauto.
  - intros v. cbn [verts]. rewrite set_erase_In, V5, V4, V3. reflexivity.
  - intros u v. rewrite Out, E2, <- (wf_sym g1 W1), !E1. intuition congruence.
Qed.
Lemma contract_none s t g : wf g -> ~ In t (outE g s) -> contract_edge s t g = (false, g).
Proof. intros W H. unfold contract_edge. destruct (has_edge g s t) eqn:E; auto. apply has_edge_In in E; auto. contradiction. Qed.
Lemma wf_contract s t g : wf g -> wf (snd (contract_edge s t g)).
Proof.
  intros W. destruct (in_dec Nat.eq_dec t (outE g s)) as [H|H]; [apply contract_ok; auto|]. rewrite contract_none; auto.
Qed.
