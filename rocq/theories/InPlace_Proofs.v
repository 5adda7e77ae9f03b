(** The simulation between a block and the block with in-place operations. *)
From Coq Require Import List Bool Arith Lia.
From Verif Require Import InPlace_Model InPlace_Spec.
Import ListNotations.

Lemma mem_nat_spec x l : mem_nat x l = true <-> In x l.
Proof.
  unfold mem_nat. rewrite existsb_exists. split.
  - intros (y & Hy & E). apply Nat.eqb_eq in E. subst; auto.
  - intros H. exists x. split; auto. apply Nat.eqb_refl.
Qed.
Lemma mem_nat_false x l : mem_nat x l = false <-> ~ In x l.
Proof. rewrite <- mem_nat_spec. destruct (mem_nat x l); split; congruence. Qed.

Section Sim.
  Variable D : Type.
  Variable ev : nat -> list D -> D.
  Variable strict : bool.
  Notation step := (step D ev strict). Notation steps := (steps D ev strict).
  Notation read := (read D). Notation ptr := (ptr D).
  Notation state := (state D).

  Lemma length_put {A} (l : list A) i x : length (put l i x) = length l.
  Proof. revert i; induction l; intros [|i]; cbn; auto. Qed.
  Lemma nth_put {A} (l : list A) i x j :
    nth_error (put l i x) j = if (j =? i) && (i <? length l) then Some x else nth_error l j.
  Proof.
    revert i j; induction l as [|a l IH]; intros i j; cbn.
    - destruct j; rewrite andb_false_r; auto.
    - destruct i, j; cbn; auto. rewrite IH. reflexivity.
  Qed.
  Lemma map_put {A B} (g : A -> B) l i x : map g (put l i x) = put (map g l) i (g x).
  Proof. revert i; induction l; intros [|i]; cbn; auto; f_equal; auto. Qed.
  Lemma in_put {A} (l : list A) i x y : In y (put l i x) -> y = x \/ In y l.
  Proof.
    revert i; induction l as [|a l IH]; intros [|i]; cbn; auto.
    - intros [->|H]; auto.
    - intros [->|H]; auto. destruct (IH _ H); auto.
  Qed.
  Lemma all_ext {A B} (g h : A -> option B) l : (forall a, In a l -> g a = h a) -> all g l = all h l.
  Proof.
    induction l as [|a l IH]; intros H; cbn; auto. rewrite H by (left; auto).
    rewrite IH by (intros; apply H; right; auto). reflexivity.
  Qed.
  Lemma all_length {A B} (g : A -> option B) l r : all g l = Some r -> length r = length l.
  Proof.
    revert r; induction l as [|a l IH]; intros r; cbn; [intros [= <-]; auto|].
    destruct (g a); cbn [bind]; [|discriminate]. destruct (all g l) eqn:E; cbn [bind]; [|discriminate].
    intros [= <-]. cbn. f_equal; auto.
  Qed.
  Lemma all_in {A B} (g : A -> option B) l r b : all g l = Some r -> In b r -> exists a, In a l /\ g a = Some b.
  Proof.
    revert r; induction l as [|a l IH]; intros r; cbn; [intros [= <-] []|].
    destruct (g a) eqn:G; cbn [bind]; [|discriminate]. destruct (all g l) eqn:E; cbn [bind]; [|discriminate].
    intros [= <-] [->|H]; [exists a; auto|]. destruct (IH _ eq_refl H) as (a' & ? & ?). exists a'; auto.
  Qed.
  Lemma all_some {A B} (g : A -> option B) l r a : all g l = Some r -> In a l -> exists b, g a = Some b /\ In b r.
  Proof.
    revert r; induction l as [|a' l IH]; intros r; cbn; [intros _ []|].
    destruct (g a') eqn:G; cbn [bind]; [|discriminate]. destruct (all g l) eqn:E; cbn [bind]; [|discriminate].
    intros [= <-] [->|H]; [exists b; cbn; auto|]. destruct (IH _ eq_refl H) as (b' & ? & ?). exists b'; cbn; auto.
  Qed.
  Lemma all_map {A B C} (g : A -> option B) (h : B -> C) l :
    all (fun a => option_map h (g a)) l = option_map (map h) (all g l).
  Proof.
    induction l as [|a l IH]; cbn; auto. destruct (g a); cbn; auto. rewrite IH. destruct (all g l); auto.
  Qed.

  (** ** Liveness *)
  Definition reach (x : rv) (l : nat) : Prop :=
    match x with Ptr l' => l' = l | Vec ls => In l ls | Buf _ => False end.
  Definition needed (rest : list instr) (ret : list nat) (v : nat) : Prop :=
    In v ret \/ exists i, In i rest /\ is_debug (def i) = false /\ In v (all_uses (def i)).
  Definition in_bufs (s : state) (l : nat) : Prop := exists cs, In cs (bufs s) /\ In (Some l) cs.
  Definition live (n0 : nat) (rest : list instr) (ret : list nat) (s : state) (l : nat) : Prop :=
    l < n0 \/ in_bufs s l \/ exists v x, needed rest ret v /\ env s v = Some x /\ reach x l.
  Lemma needed_cons i rest ret v : needed rest ret v -> needed (i :: rest) ret v.
  Proof. intros [H|(j & ? & ? & ?)]; [left; auto|right; exists j; split; [right|]; auto]. Qed.
  Lemma needed_here i rest ret v : is_debug (def i) = false -> In v (all_uses (def i)) -> needed (i :: rest) ret v.
  Proof. intros H U. right. exists i. split; [left|]; auto. Qed.

  (** ** The relation *)
  Definition map_rv (phi : nat -> nat) (x : rv) : rv :=
    match x with Ptr l => Ptr (phi l) | Vec ls => Vec (map phi ls) | Buf b => Buf b end.
  Record rel (n0 : nat) (ret : list nat) (phi : nat -> nat) (s t : state) (rest : list instr) : Prop := {
    r_env : forall v, env t v = option_map (map_rv phi) (env s v);
    r_bufs : bufs t = map (map (option_map phi)) (bufs s);
    r_heap : forall l, live n0 rest ret s l -> nth_error (heap t) (phi l) = nth_error (heap s) l;
    r_inj : forall l l', live n0 rest ret s l -> live n0 rest ret s l' -> phi l = phi l' -> l = l';
    r_old : forall l, l < n0 -> phi l = l;
    r_good : good_state s;
    r_n0 : n0 <= length (heap s);
    r_bound : forall l, l < length (heap s) -> phi l < length (heap t)
  }.

  Lemma good_reach (s : state) v x l : good_state s -> env s v = Some x -> reach x l -> l < length (heap s).
  Proof.
    intros [G _] E R. specialize (G _ _ E). destruct x; cbn in *; subst; auto; try tauto.
    rewrite Forall_forall in G. auto.
  Qed.
  Lemma good_in_bufs (s : state) l : good_state s -> in_bufs s l -> l < length (heap s).
  Proof.
    intros [_ G] (cs & H1 & H2). rewrite Forall_forall in G. specialize (G _ H1). rewrite Forall_forall in G.
    apply (G _ H2).
  Qed.
  Lemma good_live n0 rest ret (s : state) l : good_state s -> n0 <= length (heap s) -> live n0 rest ret s l -> l < length (heap s).
  Proof.
    intros G N [H|[H|(v & x & _ & E & R)]]; [lia|eapply good_in_bufs; eauto|eapply good_reach; eauto].
  Qed.

  Lemma ptr_env (s : state) v l : ptr s v = Some l <-> env s v = Some (Ptr l).
  Proof. unfold InPlace_Spec.ptr. destruct (env s v) as [[]|]; split; congruence. Qed.
  Lemma vec_env (s : state) v l : vec D s v = Some l <-> env s v = Some (Vec l).
  Proof. unfold vec. destruct (env s v) as [[]|]; split; congruence. Qed.
  Lemma buf_env (s : state) v l : buf D s v = Some l <-> env s v = Some (Buf l).
  Proof. unfold buf. destruct (env s v) as [[]|]; split; congruence. Qed.

  Section One.
    Variables (n0 : nat) (ret : list nat) (phi : nat -> nat) (s t : state) (i : instr) (rest : list instr).
    Hypothesis R : rel n0 ret phi s t (i :: rest).

    Lemma rel_ptr v : ptr t v = option_map phi (ptr s v).
    Proof. unfold InPlace_Spec.ptr. rewrite (r_env _ _ _ _ _ _ R). destruct (env s v) as [[]|]; auto. Qed.
    Lemma rel_vec v : vec D t v = option_map (map phi) (vec D s v).
    Proof. unfold vec. rewrite (r_env _ _ _ _ _ _ R). destruct (env s v) as [[]|]; auto. Qed.
    Lemma rel_buf v : buf D t v = buf D s v.
    Proof. unfold buf. rewrite (r_env _ _ _ _ _ _ R). destruct (env s v) as [[]|]; auto. Qed.
    Lemma live_ptr v l : needed (i :: rest) ret v -> ptr s v = Some l -> live n0 (i :: rest) ret s l.
    Proof. intros N E. right; right. exists v, (Ptr l). rewrite <- ptr_env. repeat split; auto. Qed.
    Lemma rel_read v : needed (i :: rest) ret v -> read t v = read s v.
    Proof.
      intros N. unfold InPlace_Spec.read. rewrite rel_ptr. destruct (ptr s v) as [l|] eqn:E; cbn; auto.
      rewrite (r_heap _ _ _ _ _ _ R l (live_ptr v l N E)). reflexivity.
    Qed.
    Lemma rel_reads args : is_debug (def i) = false -> incl args (all_uses (def i)) -> all (read t) args = all (read s) args.
    Proof.
      intros N I. apply all_ext. intros a Ha. apply rel_read. apply needed_here; auto.
    Qed.

    (** a new cell in the source; in the target the cell [k] *)
    Lemma rel_new r c k (t' : state) :
      (forall l, live n0 rest ret s l -> phi l <> k) ->
      env t' = set r (Ptr k) (env t) -> bufs t' = bufs t -> nth_error (heap t') k = Some c ->
      (forall l, l <> k -> nth_error (heap t') l = nth_error (heap t) l) -> length (heap t) <= length (heap t') ->
      exists phi', rel n0 ret phi' (alloc D s r c) t' rest /\ (forall l, l < length (heap s) -> phi' l = phi l).
    Proof.
      intros F E B K O L.
      set (phi' := fun l => if l =? length (heap s) then k else phi l).
      assert (P : forall l, l < length (heap s) -> phi' l = phi l).
      { intros l Hl. unfold phi'. destruct (Nat.eqb_spec l (length (heap s))); [lia|auto]. }
      assert (PN : phi' (length (heap s)) = k) by (unfold phi'; rewrite Nat.eqb_refl; auto). clearbody phi'.
      pose proof (r_good _ _ _ _ _ _ R) as G. pose proof (r_n0 _ _ _ _ _ _ R) as N.
      assert (GV : forall v x, env s v = Some x -> map_rv phi' x = map_rv phi x).
      { intros v x Hv. destruct G as [G _]. specialize (G _ _ Hv). destruct x; cbn in *; auto.
        f_equal. apply map_ext_in. intros a Ha. rewrite Forall_forall in G. auto. }
      (* live cells afterwards *)
      assert (LV : forall l, live n0 rest ret (alloc D s r c) l -> l = length (heap s) \/ (l < length (heap s) /\ live n0 rest ret s l)).
      { intros l [H|[H|(v & x & Nv & Ev & Rx)]].
        - right. split; [lia|left; auto].
        - right. split; [eapply good_in_bufs; eauto|right; left; auto].
        - cbn in Ev. unfold set in Ev. destruct (v =? r).
          + injection Ev as <-. cbn in Rx. left; auto.
          + right. split; [eapply good_reach; eauto|right; right; exists v, x; auto]. }
      assert (LW : forall l, live n0 rest ret s l -> live n0 (i :: rest) ret s l).
      { intros l [H|[H|(v & x & Nv & Ev & Rx)]]; [left; auto|right; left; auto|].
        right; right. exists v, x. repeat split; auto. apply needed_cons; auto. }
      exists phi'. split; auto. constructor.
      - intros v. rewrite E. cbn. unfold set. destruct (v =? r) eqn:Ev.
        + cbn. rewrite PN. reflexivity.
        + rewrite (r_env _ _ _ _ _ _ R). destruct (env s v) as [x|] eqn:Ex; cbn; auto. f_equal. symmetry. eauto.
      - rewrite B, (r_bufs _ _ _ _ _ _ R). cbn. apply map_ext_in. intros cs Hcs. apply map_ext_in. intros o Ho.
        destruct o as [l|]; cbn; auto. f_equal. symmetry. apply P. apply (good_in_bufs s); auto. exists cs; auto.
      - intros l Hl. destruct (LV l Hl) as [->|[Hb Hl']].
        + rewrite PN, K. cbn. rewrite nth_error_app2, Nat.sub_diag by lia. reflexivity.
        + rewrite P by auto. rewrite O by auto. rewrite (r_heap _ _ _ _ _ _ R) by auto. cbn.
          rewrite nth_error_app1 by auto. reflexivity.
      - intros l l' Hl Hl'. destruct (LV l Hl) as [->|[Hb Hl1]]; destruct (LV l' Hl') as [->|[Hb' Hl1']]; auto.
        + rewrite PN, P by auto. intros X. exfalso. apply (F l'); auto.
        + rewrite PN, P by auto. intros X. exfalso. apply (F l); auto.
        + rewrite !P by auto. apply (r_inj _ _ _ _ _ _ R); auto.
      - intros l Hl. rewrite P by lia. apply (r_old _ _ _ _ _ _ R); auto.
      - split.
        + intros v x. cbn. unfold set. destruct (v =? r).
          * intros [= <-]. cbn. rewrite app_length. cbn. lia.
          * intros Hv. destruct G as [G _]. specialize (G _ _ Hv). destruct x; cbn in *; auto.
            -- rewrite app_length. lia.
            -- eapply Forall_impl; [|exact G]. cbn. intros a Ha. rewrite app_length. lia.
        + cbn. destruct G as [_ G]. eapply Forall_impl; [|exact G]. intros cs Hcs. eapply Forall_impl; [|exact Hcs].
          cbn. intros [l|]; auto. intros Hl. rewrite app_length. lia.
      - cbn. rewrite app_length. lia.
      - intros l Hl. cbn in Hl. rewrite app_length in Hl. cbn in Hl. destruct (Nat.eq_dec l (length (heap s))) as [->|].
        + rewrite PN. apply nth_error_Some. congruence.
        + rewrite P by lia. pose proof (r_bound _ _ _ _ _ _ R l ltac:(lia)). lia.
    Qed.

    (** nothing new is allocated, and all cells that are live afterwards were live before *)
    Lemma rel_same (s' t' : state) :
      (forall v, env t' v = option_map (map_rv phi) (env s' v)) ->
      bufs t' = map (map (option_map phi)) (bufs s') ->
      (forall l, live n0 rest ret s' l -> live n0 (i :: rest) ret s l) ->
      (forall l, live n0 (i :: rest) ret s l -> nth_error (heap t') (phi l) = nth_error (heap s') l) ->
      length (heap s') = length (heap s) -> length (heap t') = length (heap t) ->
      good_state s' -> rel n0 ret phi s' t' rest.
    Proof.
      intros E B L H Ls Lt G. constructor; auto.
      - intros l l' Hl Hl'. apply (r_inj _ _ _ _ _ _ R); auto.
      - apply (r_old _ _ _ _ _ _ R).
      - rewrite Ls. apply (r_n0 _ _ _ _ _ _ R).
      - intros l. rewrite Ls, Lt. apply (r_bound _ _ _ _ _ _ R).
    Qed.

    (** defining a value that refers to live cells *)
    Lemma live_define r x :
      (forall l, reach x l -> live n0 (i :: rest) ret s l) ->
      forall l, live n0 rest ret (define D s r x) l -> live n0 (i :: rest) ret s l.
    Proof.
      intros X l [H|[H|(v & y & Nv & Ev & Ry)]]; [left; auto|right; left; auto|].
      cbn in Ev. unfold set in Ev. destruct (v =? r).
      - injection Ev as <-. auto.
      - right; right. exists v, y. repeat split; auto. apply needed_cons; auto.
    Qed.
    Lemma rel_define r x :
      good_rv s x -> (forall l, reach x l -> live n0 (i :: rest) ret s l) ->
      rel n0 ret phi (define D s r x) (define D t r (map_rv phi x)) rest.
    Proof.
      intros Gx X. apply rel_same; cbn; auto.
      - intros v. unfold set. destruct (v =? r); auto. apply (r_env _ _ _ _ _ _ R).
      - apply (r_bufs _ _ _ _ _ _ R).
      - apply live_define; auto.
      - apply (r_heap _ _ _ _ _ _ R).
      - destruct (r_good _ _ _ _ _ _ R) as [G1 G2]. split; auto.
        intros v y. cbn. unfold set. destruct (v =? r); [intros [= <-]; auto|]. intros Hv. apply (G1 _ _ Hv).
    Qed.

    Lemma t_bound v x l : env t v = Some x -> reach x l -> l < length (heap t).
    Proof.
      rewrite (r_env _ _ _ _ _ _ R). destruct (env s v) as [y|] eqn:E; [|discriminate]. intros [= <-] H.
      destruct y; cbn in H.
      - subst. apply (r_bound _ _ _ _ _ _ R). apply (good_reach s v (Ptr l0)); auto using (r_good _ _ _ _ _ _ R). reflexivity.
      - apply in_map_iff in H. destruct H as (a & <- & Ha). apply (r_bound _ _ _ _ _ _ R).
        apply (good_reach s v (Vec ls)); auto using (r_good _ _ _ _ _ _ R).
      - tauto.
    Qed.

    (** the same operation in both programs *)
    Lemma sim_same s' : step i s = Some s' ->
      exists t' phi', step i t = Some t' /\ rel n0 ret phi' s' t' rest /\ (forall l, l < length (heap s) -> phi' l = phi l).
    Proof.
      intros S. unfold InPlace_Spec.step in *.
      assert (LB : forall l, live n0 rest ret s l -> phi l <> length (heap t)).
      { intros l Hl. pose proof (good_live _ _ _ _ _ (r_good _ _ _ _ _ _ R) (r_n0 _ _ _ _ _ _ R) Hl) as B.
        pose proof (r_bound _ _ _ _ _ _ R l B). lia. }
      assert (NEW : forall c, exists phi', rel n0 ret phi' (alloc D s (res i) c) (alloc D t (res i) c) rest /\ (forall l, l < length (heap s) -> phi' l = phi l)).
      { intros c. apply rel_new with (k := length (heap t)); auto; cbn.
        - rewrite nth_error_app2, Nat.sub_diag by lia. reflexivity.
        - intros l Hl. destruct (Nat.lt_ge_cases l (length (heap t))).
          + rewrite nth_error_app1 by auto. auto.
          + rewrite (proj2 (nth_error_None (heap t) l)) by auto. apply nth_error_None. rewrite app_length. cbn. lia.
        - rewrite app_length. lia. }
      destruct (def i) as [k f args|f args dst|tt k|c tt k|cs|n|m k|c m k|init trips f args|v] eqn:Di.
      - assert (RA : all (read t) args = all (read s) args).
        { apply rel_reads; rewrite Di; auto. unfold all_uses. cbn. apply incl_appl, incl_refl. }
        rewrite RA. destruct (all (read s) args) as [xs|]; cbn [bind] in *; [|discriminate]. injection S as <-.
        destruct (NEW (ev f xs, dep i)) as (phi' & H1 & H2). eexists _, phi'. split; [reflexivity|]. split; auto.
      - assert (RA : all (read t) args = all (read s) args).
        { apply rel_reads; rewrite Di; auto. unfold all_uses. cbn. apply incl_appl, incl_appl, incl_refl. }
        rewrite RA. destruct (all (read s) args) as [xs|]; cbn [bind] in *; [|discriminate].
        rewrite rel_ptr. destruct (ptr s dst) as [l|] eqn:P; cbn [bind option_map] in *; [|discriminate].
        assert (LL : live n0 (i :: rest) ret s l).
        { apply (live_ptr dst); auto. apply needed_here; rewrite Di; auto. unfold all_uses. cbn. rewrite app_nil_r.
          apply in_or_app; right; left; auto. }
        rewrite (r_heap _ _ _ _ _ _ R l LL). destruct (nth_error (heap s) l) as [c|] eqn:C; cbn [bind] in *; [|discriminate].
        destruct (negb strict || (snd c <=? dep i)); [|discriminate]. injection S as <-.
        eexists _, phi. split; [reflexivity|]. split; auto. apply rel_same; cbn.
        + intros v. unfold set. destruct (v =? res i); auto. apply (r_env _ _ _ _ _ _ R).
        + apply (r_bufs _ _ _ _ _ _ R).
        + intros l' H. apply (live_define (res i) (Ptr l)); auto. intros l'' Hl. cbn in Hl. subst; auto.
        + intros l' H. rewrite !nth_put.
          assert (l < length (heap s)) by (apply nth_error_Some; congruence).
          assert (phi l < length (heap t)) by (apply (r_bound _ _ _ _ _ _ R); auto).
          replace (l <? length (heap s)) with true by (symmetry; apply Nat.ltb_lt; auto).
          replace (phi l <? length (heap t)) with true by (symmetry; apply Nat.ltb_lt; auto).
          rewrite !andb_true_r. destruct (Nat.eqb_spec l' l) as [->|N].
          * rewrite Nat.eqb_refl. auto.
          * destruct (Nat.eqb_spec (phi l') (phi l)) as [E|_]; [|apply (r_heap _ _ _ _ _ _ R); auto].
            exfalso. apply N. apply (r_inj _ _ _ _ _ _ R); auto.
        + apply length_put.
        + apply length_put.
        + destruct (r_good _ _ _ _ _ _ R) as [G1 G2]. split; cbn; rewrite ?length_put; auto.
          intros v x. unfold set. destruct (v =? res i).
          * intros [= <-]. cbn. rewrite length_put. apply nth_error_Some. congruence.
          * intros Hv. specialize (G1 _ _ Hv). destruct x; cbn in *; rewrite ?length_put; auto.
      - rewrite rel_vec. destruct (vec D s tt) as [ls|] eqn:V; cbn [bind option_map] in *; [|discriminate].
        rewrite nth_error_map. destruct (nth_error ls k) as [l|] eqn:K; cbn [bind option_map] in *; [|discriminate].
        injection S as <-. eexists _, phi. split; [reflexivity|]. split; auto.
        assert (LL : live n0 (i :: rest) ret s l).
        { right; right. exists tt, (Vec ls). rewrite <- vec_env. repeat split; auto.
          - apply needed_here; rewrite Di; cbn; auto.
          - cbn. eapply nth_error_In; eauto. }
        apply (rel_define (res i) (Ptr l)).
        + cbn. eapply good_live; eauto using (r_good _ _ _ _ _ _ R), (r_n0 _ _ _ _ _ _ R).
        + cbn. intros ? <-; auto.
      - rewrite rel_ptr. destruct (ptr s c) as [l|] eqn:P; cbn [bind option_map] in *; [|discriminate].
        rewrite rel_vec. destruct (vec D s tt) as [ls|] eqn:V; cbn [bind option_map] in *; [|discriminate].
        injection S as <-. eexists _, phi. split; [reflexivity|]. split; auto.
        rewrite <- map_put.
        assert (LL : forall l', In l' (put ls k l) -> live n0 (i :: rest) ret s l').
        { intros l' H. apply in_put in H. destruct H as [->|H].
          - apply (live_ptr c); auto. apply needed_here; rewrite Di; cbn; auto.
          - right; right. exists tt, (Vec ls). rewrite <- vec_env. repeat split; auto.
            apply needed_here; rewrite Di; cbn; auto. }
        apply (rel_define (res i) (Vec (put ls k l))); auto.
        cbn. apply Forall_forall. intros l' H. eapply good_live; eauto using (r_good _ _ _ _ _ _ R), (r_n0 _ _ _ _ _ _ R).
      - assert (RA : all (ptr t) cs = option_map (map phi) (all (ptr s) cs)).
        { rewrite <- all_map. apply all_ext. intros; apply rel_ptr. }
        rewrite RA. destruct (all (ptr s) cs) as [ls|] eqn:P; cbn [bind option_map] in *; [|discriminate].
        injection S as <-. eexists _, phi. split; [reflexivity|]. split; auto.
        assert (LL : forall l', In l' ls -> live n0 (i :: rest) ret s l').
        { intros l' H. destruct (all_in _ _ _ _ P H) as (a & Ha & Pa). apply (live_ptr a); auto.
          apply needed_here; rewrite Di; auto. unfold all_uses. cbn. rewrite app_nil_r. auto. }
        apply (rel_define (res i) (Vec ls)); auto.
        cbn. apply Forall_forall. intros l' H. eapply good_live; eauto using (r_good _ _ _ _ _ _ R), (r_n0 _ _ _ _ _ _ R).
      - injection S as <-. eexists _, phi. split; [reflexivity|]. split; auto.
        assert (BL : length (bufs t) = length (bufs s)) by (rewrite (r_bufs _ _ _ _ _ _ R), map_length; auto).
        apply rel_same; cbn; auto.
        + intros v. unfold set. destruct (v =? res i); [cbn; congruence|]. apply (r_env _ _ _ _ _ _ R).
        + rewrite (r_bufs _ _ _ _ _ _ R), map_app. cbn. do 2 f_equal. clear. induction n; cbn; f_equal; auto.
        + intros l [H|[H|(v & x & Nv & Ev & Rx)]]; [left; auto| |].
          * right; left. destruct H as (cs & H1 & H2). cbn in H1. apply in_app_or in H1. destruct H1 as [H1|[<-|[]]].
            -- exists cs; auto.
            -- apply repeat_spec in H2. discriminate.
          * cbn in Ev. unfold set in Ev. destruct (v =? res i).
            -- injection Ev as <-. cbn in Rx. tauto.
            -- right; right. exists v, x. repeat split; auto. apply needed_cons; auto.
        + apply (r_heap _ _ _ _ _ _ R).
        + destruct (r_good _ _ _ _ _ _ R) as [G1 G2]. split; cbn.
          * intros v x. unfold set. destruct (v =? res i).
            -- intros [= <-]. cbn. rewrite app_length. cbn. lia.
            -- intros Hv. specialize (G1 _ _ Hv). destruct x; cbn in *; auto. rewrite app_length. lia.
          * apply Forall_app. split; auto. constructor; auto. clear. induction n; cbn; constructor; auto.
      - rewrite rel_buf. destruct (buf D s m) as [b|] eqn:V; cbn [bind option_map] in *; [|discriminate].
        rewrite (r_bufs _ _ _ _ _ _ R), nth_error_map. destruct (nth_error (bufs s) b) as [cs|] eqn:K; cbn [bind option_map] in *; [|discriminate].
        rewrite nth_error_map. destruct (nth_error cs k) as [o|] eqn:K2; cbn [bind option_map] in *; [|discriminate].
        destruct o as [l|]; cbn [bind option_map] in *; [|discriminate].
        injection S as <-. eexists _, phi. split; [reflexivity|]. split; auto.
        assert (LL : live n0 (i :: rest) ret s l).
        { right; left. exists cs. split; eapply nth_error_In; eauto. }
        apply (rel_define (res i) (Ptr l)).
        + cbn. eapply good_live; eauto using (r_good _ _ _ _ _ _ R), (r_n0 _ _ _ _ _ _ R).
        + cbn. intros ? <-; auto.
      - rewrite rel_ptr. destruct (ptr s c) as [l|] eqn:P; cbn [bind option_map] in *; [|discriminate].
        rewrite rel_buf. destruct (buf D s m) as [b|] eqn:V; cbn [bind option_map] in *; [|discriminate].
        rewrite (r_bufs _ _ _ _ _ _ R), nth_error_map. destruct (nth_error (bufs s) b) as [cs|] eqn:K; cbn [bind option_map] in *; [|discriminate].
        injection S as <-. eexists _, phi. split; [reflexivity|]. split; auto.
        assert (LL : live n0 (i :: rest) ret s l).
        { apply (live_ptr c); auto. apply needed_here; rewrite Di; cbn; auto. }
        assert (IB : forall cs' o, In cs' (put (bufs s) b (put cs k (Some l))) -> In o cs' -> o = Some l \/ exists cs'', In cs'' (bufs s) /\ In o cs'').
        { intros cs' o H1 H2. apply in_put in H1. destruct H1 as [->|H1].
          - apply in_put in H2. destruct H2 as [->|H2]; auto. right. exists cs. split; auto. eapply nth_error_In; eauto.
          - right. exists cs'; auto. }
        apply rel_same; cbn; auto.
        + apply (r_env _ _ _ _ _ _ R).
        + rewrite !map_put. reflexivity.
        + intros l' [H|[H|(v & x & Nv & Ev & Rx)]]; [left; auto| |].
          * destruct H as (cs' & H1 & H2). destruct (IB _ _ H1 H2) as [[= ->]|(cs'' & ? & ?)]; auto.
            right; left. exists cs''; auto.
          * right; right. exists v, x. repeat split; auto. apply needed_cons; auto.
        + apply (r_heap _ _ _ _ _ _ R).
        + destruct (r_good _ _ _ _ _ _ R) as [G1 G2]. split; cbn.
          * intros v x Hv. specialize (G1 _ _ Hv). destruct x; cbn in *; auto. rewrite length_put. auto.
          * apply Forall_forall. intros cs' H1. apply Forall_forall. intros o H2.
            destruct (IB _ _ H1 H2) as [->|(cs'' & H3 & H4)].
            -- eapply good_live; eauto using (r_good _ _ _ _ _ _ R), (r_n0 _ _ _ _ _ _ R).
            -- rewrite Forall_forall in G2. specialize (G2 _ H3). rewrite Forall_forall in G2. apply (G2 _ H4).
      - assert (RA : all (read t) args = all (read s) args).
        { apply rel_reads; rewrite Di; auto. unfold all_uses. cbn. apply incl_tl, incl_refl. }
        rewrite RA. destruct (all (read s) args) as [xs|]; cbn [bind] in *; [|discriminate].
        rewrite rel_ptr. destruct (ptr s init) as [l|] eqn:P; cbn [bind option_map] in *; [|discriminate].
        assert (LL : live n0 (i :: rest) ret s l).
        { apply (live_ptr init); auto. apply needed_here; rewrite Di; cbn; auto. }
        rewrite (r_heap _ _ _ _ _ _ R l LL). destruct (nth_error (heap s) l) as [c|] eqn:C; cbn [bind] in *; [|discriminate].
        destruct trips as [|n].
        + injection S as <-. eexists _, phi. split; [reflexivity|]. split; auto.
          apply (rel_define (res i) (Ptr l)).
          * cbn. apply nth_error_Some. congruence.
          * cbn. intros ? <-; auto.
        + injection S as <-. destruct (NEW (Nat.iter (S n) (fun x => ev f (x :: xs)) (fst c), dep i)) as (phi' & H1 & H2).
          eexists _, phi'. split; [reflexivity|]. split; auto.
      - rewrite (r_env _ _ _ _ _ _ R). destruct (env s v) as [x|] eqn:Ex; cbn [bind option_map] in *; [|discriminate].
        injection S as <-. eexists _, phi. split; [reflexivity|]. split; auto.
        apply rel_same; cbn; auto.
        + apply (r_env _ _ _ _ _ _ R).
        + apply (r_bufs _ _ _ _ _ _ R).
        + intros l [H|[H|(w & y & Nv & Ev & Rx)]]; [left; auto|right; left; auto|].
          right; right. exists w, y. repeat split; auto. apply needed_cons; auto.
        + apply (r_heap _ _ _ _ _ _ R).
        + destruct (r_good _ _ _ _ _ _ R) as [G1 G2]. split; cbn; auto.
    Qed.

    (** an allocating operation that becomes in-place *)
    Lemma sim_inplace k f args dst lam c s' :
      def i = INew k f args -> step i s = Some s' ->
      env t dst = Some (Ptr lam) -> nth_error (heap t) lam = Some c -> (strict = true -> snd c <= dep i) ->
      (forall l, live n0 rest ret s l -> phi l <> lam) ->
      exists t' phi' xs, step (Instr (res i) (IInPlace f args dst) (lev i) (dep i)) t = Some t' /\
        t' = State (set (res i) (Ptr lam) (env t)) (put (heap t) lam (ev f xs, dep i)) (bufs t) (out t) /\
        rel n0 ret phi' s' t' rest /\ (forall l, l < length (heap s) -> phi' l = phi l).
    Proof.
      intros Di S E C L F. unfold InPlace_Spec.step in *. rewrite Di in S. cbn [def res dep].
      assert (RA : all (read t) args = all (read s) args).
      { apply rel_reads; rewrite Di; auto. unfold all_uses. cbn. apply incl_appl, incl_refl. }
      rewrite RA. destruct (all (read s) args) as [xs|]; cbn [bind] in *; [|discriminate]. injection S as <-.
      rewrite (proj2 (ptr_env t dst lam) E). cbn [bind]. rewrite C. cbn [bind].
      assert (Q : negb strict || (snd c <=? dep i) = true).
      { destruct strict; auto. cbn. apply Nat.leb_le. auto. }
      rewrite Q.
      assert (B : lam < length (heap t)) by (apply nth_error_Some; congruence).
      destruct (rel_new (res i) (ev f xs, dep i) lam (State (set (res i) (Ptr lam) (env t)) (put (heap t) lam (ev f xs, dep i)) (bufs t) (out t))) as (phi' & H1 & H2); cbn; auto.
      - rewrite nth_put, Nat.eqb_refl. replace (lam <? length (heap t)) with true by (symmetry; apply Nat.ltb_lt; auto). auto.
      - intros l Hl. rewrite nth_put. destruct (Nat.eqb_spec l lam); [congruence|auto].
      - rewrite length_put. auto.
      - eexists _, phi', xs. repeat split; auto; apply H1.
    Qed.
  End One.

  Lemma firstn_ext {A} n : forall l m : list A, (forall k, k < n -> nth_error l k = nth_error m k) -> firstn n l = firstn n m.
  Proof.
    induction n as [|n IH]; intros l m H; auto. destruct l, m; cbn; auto.
    - specialize (H 0 ltac:(lia)). discriminate.
    - specialize (H 0 ltac:(lia)). discriminate.
    - pose proof (H 0 ltac:(lia)) as H0. cbn in H0. injection H0 as ->. f_equal. apply IH. intros k Hk.
      apply (H (S k)). lia.
  Qed.
  Lemma rel_start n0 ret (s : state) is : good_state s -> n0 = length (heap s) -> rel n0 ret (fun l => l) s s is.
  Proof.
    intros G ->. constructor; auto.
    - intros v. destruct (env s v) as [[]|]; cbn; auto. rewrite map_id. auto.
    - symmetry. rewrite <- map_id. apply map_ext. intros cs. rewrite <- map_id. apply map_ext. intros []; auto.
  Qed.

  Lemma rel_observe ret phi (s t : state) n0 : rel n0 ret phi s t [] -> observe D n0 t ret = observe D n0 s ret.
  Proof.
    intros R. unfold observe.
    assert (A : all (env t) ret = option_map (map (map_rv phi)) (all (env s) ret)).
    { rewrite <- all_map. apply all_ext. intros; apply (r_env _ _ _ _ _ _ R). }
    rewrite A. destruct (all (env s) ret) as [xs|] eqn:E; cbn [option_map bind]; auto. f_equal.
    assert (B : map (fun cs => map (fun o => bind o (fun l => nth_error (heap t) l)) cs) (bufs t) =
                map (fun cs => map (fun o => bind o (fun l => nth_error (heap s) l)) cs) (bufs s)).
    { rewrite (r_bufs _ _ _ _ _ _ R), map_map. apply map_ext_in. intros cs Hcs. rewrite map_map. apply map_ext_in.
      intros o Ho. destruct o as [l|]; cbn; auto. apply (r_heap _ _ _ _ _ _ R). right; left. exists cs; auto. }
    f_equal; auto.
    - rewrite map_map. apply map_ext_in. intros x Hx. destruct (all_in _ _ _ _ E Hx) as (v & Hv & Ev).
      destruct x; cbn.
      + f_equal. apply (r_heap _ _ _ _ _ _ R). right; right. exists v, (Ptr l). repeat split; auto. left; auto.
      + rewrite map_map. apply map_ext_in. intros l Hl. apply (r_heap _ _ _ _ _ _ R). right; right.
        exists v, (Vec ls). repeat split; auto. left; auto.
      + rewrite <- (map_nth (map (fun o => bind o (fun l => nth_error (heap t) l)))).
        rewrite <- (map_nth (map (fun o => bind o (fun l => nth_error (heap s) l)))).
        exact (f_equal (fun L => nth b L []) B).
    - apply firstn_ext. intros k Hk.
      pose proof (r_heap _ _ _ _ _ _ R k) as X. rewrite (r_old _ _ _ _ _ _ R) in X by auto. apply X. left; auto.
  Qed.
End Sim.
