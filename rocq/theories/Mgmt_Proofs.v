From Coq Require Import List Bool Arith Lia.
From Verif Require Import Mgmt_Model Mgmt_Spec.
Import ListNotations.

(** * Basics *)
Lemma mem_iff v l : mem v l = true <-> In v l.
Proof.
  unfold mem. rewrite existsb_exists. split.
  - intros (x & H & E). apply Nat.eqb_eq in E. now subst.
  - intros H. exists v. split; [easy|apply Nat.eqb_refl].
Qed.
Lemma mem_false v l : mem v l = false <-> ~ In v l.
Proof. rewrite <- mem_iff. destruct (mem v l); intuition congruence. Qed.
Lemma upd_same {A} (e : nat -> A) v a : upd e v a v = a.
Proof. unfold upd. now rewrite Nat.eqb_refl. Qed.
Lemma upd_other {A} (e : nat -> A) v a u : u <> v -> upd e v a u = e u.
Proof. intros H. unfold upd. now rewrite (proj2 (Nat.eqb_neq _ _) H). Qed.

Lemma list_max_le l v : In v l -> v <= list_max l.
Proof.
  unfold list_max. induction l as [|a l IH]; cbn; [easy|]. intros [->|H]; [lia|]. specialize (IH H). lia.
Qed.
Lemma fresh_lt p v : In v (sargs p ++ pargs p ++ outs p ++ flat_map (fun i => res i :: args i) (body p)) -> v < fresh p.
Proof. intros H. unfold fresh. apply list_max_le in H. lia. Qed.

Lemma map_ext_Forall {A B} (f g : A -> B) l : Forall (fun x => f x = g x) l -> map f l = map g l.
Proof. induction 1; cbn; congruence. Qed.
Lemma Forall_In {A} (P : A -> Prop) l : (forall x, In x l -> P x) -> Forall P l.
Proof. intros; now apply Forall_forall. Qed.
Lemma Forall2_impl {A B} (P Q : A -> B -> Prop) l l' :
  (forall x y, In x l -> In y l' -> P x y -> Q x y) -> Forall2 P l l' -> Forall2 Q l l'.
Proof.
  intros H F. induction F; constructor.
  - apply H; cbn; auto.
  - apply IHF. intros; apply H; cbn; auto.
Qed.
Lemma Forall2_map_eq {A B C} (f : A -> C) (g : B -> C) l l' : Forall2 (fun x y => f x = g y) l l' -> map f l = map g l'.
Proof. induction 1; cbn; congruence. Qed.

(** ids of a piece of code below N *)
Definition below (N : nat) (p : list inst) : Prop := forall i, In i p -> res i < N /\ (forall v, In v (args i) -> v < N).
Lemma below_fresh p : below (fresh p) (body p).
Proof.
  intros i H. split; [|intros v Hv]; apply fresh_lt; rewrite !in_app_iff; right; right; right;
    apply in_flat_map; exists i; split; cbn; auto.
Qed.

(** * Runs *)
Section Run.
  Context {A : Type} (g : opk -> list A -> option A).

  Lemma run_app e p q : run g e (p ++ q) = match run g e p with None => None | Some e' => run g e' q end.
  Proof. revert e. induction p as [|i p IH]; intros e; cbn; [easy|]. destruct (g _ _); [apply IH|easy]. Qed.

  Lemma run_unchanged e p F v : run g e p = Some F -> ~ In v (map res p) -> F v = e v.
  Proof.
    revert e. induction p as [|i p IH]; intros e R H; cbn in *; [congruence|].
    destruct (g _ _) as [a|]; [|easy].
    rewrite (IH _ R) by tauto. apply upd_other. intros ->; tauto.
  Qed.

  Lemma ssa_not_redefined d p v : ssa d p -> In v d -> ~ In v (map res p).
  Proof.
    revert d. induction p as [|i p IH]; intros d S H; cbn in *; [easy|].
    destruct S as (_ & N & S). intros [E|E].
    - now subst.
    - eapply IH; [exact S| |exact E]. cbn; auto.
  Qed.
  Lemma run_final d e p F v : ssa d p -> run g e p = Some F -> In v d -> F v = e v.
  Proof. intros S R H. eapply run_unchanged; eauto using ssa_not_redefined. Qed.

  (** the result of a run satisfies the equation of every operation *)
  Lemma run_eqn d e p F i : ssa d p -> run g e p = Some F -> In i p -> g (op i) (map F (args i)) = Some (F (res i)).
  Proof.
    revert d e. induction p as [|j p IH]; intros d e S R H; cbn in *; [easy|].
    destruct S as (I & N & S). destruct (g (op j) _) as [a|] eqn:Ga; [|easy].
    destruct H as [->|H].
    - rewrite (run_final _ _ _ _ (res i) S R) by (cbn; auto). rewrite upd_same.
      rewrite <- Ga. f_equal. apply map_ext_Forall, Forall_In. intros v Hv.
      rewrite (run_final _ _ _ _ v S R) by (cbn; auto).
      apply upd_other. intros ->. apply N. auto.
    - eapply IH; eauto.
  Qed.

  Lemma run_ext e e' p F : (forall v, e v = e' v) -> run g e p = Some F ->
    exists F', run g e' p = Some F' /\ forall v, F v = F' v.
  Proof.
    revert e e'. induction p as [|i p IH]; intros e e' H R; cbn in *.
    - injection R as <-. eauto.
    - rewrite <- (map_ext _ _ H). destruct (g _ _); [|easy].
      eapply IH; [|exact R]. intros v. unfold upd. now rewrite H.
  Qed.
End Run.

Lemma ssa_app d p q : ssa d (p ++ q) <-> ssa d p /\ ssa (rev (map res p) ++ d) q.
Proof.
  revert d. induction p as [|i p IH]; intros d; cbn; [tauto|].
  rewrite IH. rewrite <- app_assoc. cbn. tauto.
Qed.
Lemma ssa_perm d d' p : (forall v, In v d <-> In v d') -> ssa d p -> ssa d' p.
Proof.
  revert d d'. induction p as [|i p IH]; intros d d' H S; cbn in *; [easy|].
  destruct S as (I & N & S). split; [|split].
  - intros v Hv. apply H. auto.
  - now rewrite <- H.
  - eapply IH; [|exact S]. intros v. cbn. now rewrite H.
Qed.

(** * Walks *)
Section Walk.
  Context {S A B : Type} (f : S -> inst -> list inst * S).
  Context (g1 : opk -> list A -> option A) (g2 : opk -> list B -> option B).
  Context (I : S -> (nat -> A) -> (nat -> B) -> Prop).

  Lemma walk_run d p e F s e' :
    (forall s e e' i a, In i p -> I s e e' -> (forall v, In v (args i) -> e v = F v) ->
       g1 (op i) (map e (args i)) = Some a -> F (res i) = a ->
       exists e2, run g2 e' (fst (f s i)) = Some e2 /\ I (snd (f s i)) (upd e (res i) a) e2) ->
    ssa d p -> run g1 e p = Some F -> I s e e' ->
    exists e2, run g2 e' (fst (walk f s p)) = Some e2 /\ I (snd (walk f s p)) F e2.
  Proof.
    revert d s e e'. induction p as [|i p IH]; intros d s e e' H Sd R Hi.
    - cbn in *. injection R as <-. eauto.
    - cbn in R, Sd |- *. destruct Sd as (Ia & Nd & Sd).
      destruct (g1 (op i) _) as [a|] eqn:Ga; [|easy].
      destruct (H s e e' i a) as (e2 & R2 & I2); auto; [now left| | |].
      + intros v Hv. symmetry. rewrite (run_final _ _ _ _ _ v Sd R) by (cbn; auto).
        apply upd_other. intros ->. auto.
      + rewrite (run_final _ _ _ _ _ (res i) Sd R) by (cbn; auto). apply upd_same.
      + destruct (f s i) as [q s1]. cbn in R2, I2.
        destruct (IH _ s1 _ e2 (fun s e e' i a Hin => H s e e' i a (or_intror Hin)) Sd R I2) as (e3 & R3 & I3).
        destruct (walk f s1 p) as [r s2]. cbn in *. exists e3. split; [|easy].
        rewrite run_app, R2. exact R3.
  Qed.

  (** without SSA *)
  Lemma walk_run0 p e F s e' :
    (forall s e e' i a, In i p -> I s e e' -> g1 (op i) (map e (args i)) = Some a ->
       exists e2, run g2 e' (fst (f s i)) = Some e2 /\ I (snd (f s i)) (upd e (res i) a) e2) ->
    run g1 e p = Some F -> I s e e' ->
    exists e2, run g2 e' (fst (walk f s p)) = Some e2 /\ I (snd (walk f s p)) F e2.
  Proof.
    revert s e e'. induction p as [|i p IH]; intros s e e' H R Hi.
    - cbn in *. injection R as <-. eauto.
    - cbn in R |- *.
      destruct (g1 (op i) _) as [a|] eqn:Ga; [|easy].
      destruct (H s e e' i a) as (e2 & R2 & I2); auto; [now left|].
      destruct (f s i) as [q s1]. cbn in R2, I2.
      destruct (IH s1 _ e2 (fun s e e' i a Hin => H s e e' i a (or_intror Hin)) R I2) as (e3 & R3 & I3).
      destruct (walk f s1 p) as [r s2]. cbn in *. exists e3. split; [|easy].
      rewrite run_app, R2. exact R3.
  Qed.
End Walk.

(** ** New operations are numbered consecutively *)
Fixpoint chain (d : list nat) (n : nat) (q : list inst) (n' : nat) : Prop :=
  match q with
  | [] => n' = n
  | j :: q => res j = n /\ incl (args j) d /\ chain (n :: d) (S n) q n'
  end.
Lemma chain_mono d d' n q n' : incl d d' -> chain d n q n' -> chain d' n q n'.
Proof.
  revert d d' n. induction q as [|j q IH]; intros d d' n H C; cbn in *; [easy|].
  destruct C as (E & I & C). split; [easy|]. split; [eapply incl_tran; eauto|].
  eapply IH; [|exact C]. intros v [->|Hv]; cbn; auto.
Qed.
Lemma chain_app d n q m r n' :
  chain d n q m -> chain (rev (map res q) ++ d) m r n' -> chain d n (q ++ r) n'.
Proof.
  revert d n. induction q as [|j q IH]; intros d n C1 C2; cbn in *.
  - now subst.
  - destruct C1 as (E & I & C1). split; [easy|]. split; [easy|]. eapply IH; [exact C1|].
    rewrite <- app_assoc in C2. cbn in C2. now rewrite E in C2.
Qed.
Lemma chain_le d n q n' : chain d n q n' -> n <= n'.
Proof.
  revert d n. induction q as [|j q IH]; intros d n C; cbn in *; [lia|].
  destruct C as (_ & _ & C). apply IH in C. lia.
Qed.
Lemma chain_res d n q n' v : chain d n q n' -> (In v (map res q) <-> n <= v < n').
Proof.
  revert d n. induction q as [|j q IH]; intros d n C; cbn in *; [lia|].
  destruct C as (E & _ & C). rewrite (IH _ _ C). apply chain_le in C. lia.
Qed.
Lemma chain_ssa d n q n' : (forall v, In v d -> v < n) -> chain d n q n' -> ssa d q.
Proof.
  revert d n. induction q as [|j q IH]; intros d n H C; cbn in *; [easy|].
  destruct C as (E & I & C). subst n. split; [easy|]. split.
  - intros K. apply H in K. lia.
  - eapply IH; [|exact C]. intros v [<-|Hv]; [lia|]. apply H in Hv. lia.
Qed.

(** how the rewriting of one operation looks: its numbers *)
Definition emits (n : nat) (i : inst) (q : list inst) (n' : nat) : Prop :=
  n <= n' /\
  forall d, incl (args i) d -> ~ In (res i) d -> (forall v, In v d -> v < n) -> res i < n ->
    ssa d q /\ (forall v, In v (map res q) <-> v = res i \/ n <= v < n').

Lemma emits_self n i : emits n i [i] n.
Proof.
  split; [easy|]. intros d I N H R. split; [cbn; tauto|]. intros v. cbn. split; [|]; intros; intuition; lia.
Qed.
Lemma emits_before n i q l n' k :
  chain (args i) n q n' -> (forall v, In v l -> In v (args i) \/ n <= v < n') ->
  emits n i (q ++ [Inst k l (res i)]) n'.
Proof.
  intros C H. pose proof (chain_le _ _ _ _ C) as Le. split; [easy|].
  intros d I N B R. split.
  - rewrite ssa_app. split; [eapply chain_ssa; [|eapply chain_mono]; eauto|].
    cbn. split; [|split; [|easy]].
    + intros v Hv. rewrite in_app_iff, <- in_rev, (chain_res _ _ _ _ _ C). destruct (H _ Hv); auto.
    + rewrite in_app_iff, <- in_rev, (chain_res _ _ _ _ _ C). intros [K|K]; [lia|auto].
  - intros v. rewrite map_app, in_app_iff, (chain_res _ _ _ _ _ C). cbn. split; intros; intuition.
Qed.
Lemma emits_after n i k : emits n i [Inst (op i) (args i) n; Inst k [n] (res i)] (S n).
Proof.
  split; [lia|]. intros d I N B R. split.
  - cbn. repeat split; auto.
    + intros K. apply B in K. lia.
    + intros v [<-|[]]. now left.
    + intros [K|K]; [lia|auto].
  - intros v. cbn. split; intros; intuition; lia.
Qed.

Section WalkSsa.
  Context {S : Type} (nxt : S -> nat) (f : S -> inst -> list inst * S) (N : nat).
  Lemma walk_ssa p s d d' :
    (forall s i, In i p -> emits (nxt s) i (fst (f s i)) (nxt (snd (f s i)))) ->
    below N p -> N <= nxt s -> ssa d p ->
    (forall v, In v d -> v < N) -> (forall v, In v d' <-> In v d \/ N <= v < nxt s) ->
    ssa d' (fst (walk f s p)) /\ nxt s <= nxt (snd (walk f s p)) /\
    (forall v, In v (map res (fst (walk f s p))) <-> In v (map res p) \/ nxt s <= v < nxt (snd (walk f s p))).
  Proof.
    revert s d d'. induction p as [|i p IH]; intros s d d' H Bl Ge Sd Bd Dd; cbn.
    - split; [easy|]. split; [easy|]. intros v. split; intros; [easy|]. intuition; lia.
    - cbn in Sd. destruct Sd as (Ia & Nd & Sd).
      destruct (H s i (or_introl eq_refl)) as (Le & E).
      destruct (Bl i (or_introl eq_refl)) as (Br & Ba).
      destruct (E d') as (Sq & Rq).
      + intros v Hv. apply Dd. left. auto.
      + rewrite Dd. intros [K|K]; [auto|lia].
      + intros v Hv. apply Dd in Hv. destruct Hv as [Hv|Hv]; [apply Bd in Hv; lia|lia].
      + lia.
      + destruct (f s i) as [q s1]. cbn in *.
        destruct (IH s1 (res i :: d) (rev (map res q) ++ d')) as (S2 & L2 & R2); auto.
        * intros j Hj. apply Bl. now right.
        * lia.
        * intros v [<-|Hv]; auto.
        * intros v. rewrite in_app_iff, <- in_rev, Rq, Dd. cbn. split.
          -- intros [[->|K]|[K|K]]; auto; right; lia.
          -- intros [[->|K]|K]; auto.
             destruct (Nat.lt_ge_cases v (nxt s)); [right; right; lia|left; right; lia].
        * destruct (walk f s1 p) as [r s2]. cbn in *. split; [rewrite ssa_app; auto|]. split; [lia|].
          intros v. rewrite map_app, in_app_iff, Rq, R2. split.
          -- intros [[->|K]|[K|K]]; auto; right; lia.
          -- intros [[->|K]|K]; auto.
             destruct (Nat.lt_ge_cases v (nxt s1)); [left; right; lia|right; right; lia].
  Qed.
End WalkSsa.
