(** The Lattigo pass keeps what a block computes. *)
From Coq Require Import List Bool Arith Lia.
From Verif Require Import InPlace_Model InPlace_Spec InPlace_Proofs.
Import ListNotations.

Definition cls (e : nat * list nat) : list nat := fst e :: snd e.

Lemma NoDup_map_inj {A B} (g : A -> B) l a b : NoDup (map g l) -> In a l -> In b l -> g a = g b -> a = b.
Proof.
  induction l as [|x l IH]; cbn; [tauto|]. intros N Ha Hb E. inversion N as [|? ? N1 N2]; subst.
  destruct Ha as [->|Ha], Hb as [->|Hb]; auto.
  - exfalso. apply N1. rewrite E. apply in_map; auto.
  - exfalso. apply N1. rewrite <- E. apply in_map; auto.
Qed.
Lemma NoDup_disjoint {A} (l l' : list A) x : NoDup (l ++ l') -> In x l -> In x l' -> False.
Proof.
  induction l as [|a l IH]; cbn; [tauto|]. intros N [->|H] Hv; inversion N as [|? ? N1 N2]; subst; auto.
  apply N1. apply in_or_app; auto.
Qed.
Lemma filter_nil {A} (p : A -> bool) l : (forall x, In x l -> p x = false) -> filter p l = [].
Proof. induction l as [|a l IH]; cbn; auto. intros H. rewrite (H a) by auto. auto. Qed.
Lemma filter_ext_in' {A} (p q : A -> bool) l : (forall x, In x l -> p x = q x) -> filter p l = filter q l.
Proof. induction l as [|a l IH]; cbn; auto. intros H. rewrite (H a) by auto. rewrite IH by auto. reflexivity. Qed.
Lemma last_snoc {A} (l : list A) x d : last (l ++ [x]) d = x.
Proof. induction l as [|a l IH]; cbn; auto. destruct (l ++ [x]) eqn:E; [destruct l; discriminate|auto]. Qed.
Lemma last_cons {A} (a : A) l d : last (a :: l) d = last l a.
Proof. revert a d; induction l as [|b l IH]; intros a d; auto. change (last (b :: l) d = last (b :: l) a). rewrite !IH. auto. Qed.

(** ** The map of storages *)
Lemma update_present m s g vs : NoDup (map fst m) -> In (s, vs) m ->
  update m s g = map (fun e => if fst e =? s then (fst e, g (snd e)) else e) m.
Proof.
  induction m as [|[k ws] m IH]; cbn; [tauto|]. intros N H. inversion N as [|? ? N1 N2]; subst.
  destruct (Nat.eqb_spec k s) as [->|X].
  - f_equal. rewrite <- (map_id m) at 1. apply map_ext_in. intros [k' ws'] H'. cbn.
    destruct (Nat.eqb_spec k' s) as [->|]; auto. exfalso. apply N1. apply in_map_iff. exists (s, ws'); auto.
  - f_equal. apply IH; auto. destruct H as [[= -> ->]|H]; [congruence|auto].
Qed.
Lemma update_keys m s g vs : NoDup (map fst m) -> In (s, vs) m -> map fst (update m s g) = map fst m.
Proof.
  intros N H. rewrite (update_present m s g vs N H), map_map. apply map_ext. intros e. destruct (fst e =? s); auto.
Qed.
Lemma update_in m s g vs e : NoDup (map fst m) -> In (s, vs) m ->
  In e (update m s g) <-> (e = (s, g vs) \/ (In e m /\ fst e <> s)).
Proof.
  intros N H. rewrite (update_present m s g vs N H), in_map_iff. split.
  - intros (e' & E & H'). destruct (Nat.eqb_spec (fst e') s) as [X|X].
    + left. rewrite <- E. destruct e' as [k ws]. cbn in *. subst. f_equal. f_equal.
      pose proof (NoDup_map_inj fst m (s, vs) (s, ws) N H H' eq_refl). congruence.
    + subst. right. auto.
  - intros [->|[H1 H2]].
    + exists (s, vs). cbn. rewrite Nat.eqb_refl. auto.
    + exists e. destruct (Nat.eqb_spec (fst e) s); [congruence|auto].
Qed.
Lemma lookup_in m s vs : NoDup (map fst m) -> In (s, vs) m -> lookup m s = vs.
Proof.
  unfold lookup. induction m as [|[k ws] m IH]; cbn; [tauto|]. intros N H. inversion N as [|? ? N1 N2]; subst.
  destruct (Nat.eqb_spec k s) as [->|X]; cbn.
  - destruct H as [[= ->]|H]; auto. exfalso. apply N1. apply in_map_iff. exists (s, vs); auto.
  - apply IH; auto. destruct H as [[= -> ->]|H]; [congruence|auto].
Qed.
Lemma update_absent m s g : ~ In s (map fst m) -> update m s g = m ++ [(s, g [])].
Proof.
  induction m as [|[k ws] m IH]; cbn; auto. intros H. destruct (Nat.eqb_spec k s); [tauto|]. f_equal. auto.
Qed.
Lemma NoDup_filter_fst (p : nat * list nat -> bool) m : NoDup (map fst m) -> NoDup (map fst (filter p m)).
Proof.
  induction m as [|e m IH]; cbn; auto. intros N. inversion N as [|? ? N1 N2]; subst. destruct (p e); cbn; auto.
  constructor; auto. intros H. apply N1. apply in_map_iff in H. destruct H as (e' & E & H). apply filter_In in H.
  apply in_map_iff. exists e'. tauto.
Qed.
Lemma replace_spec m old s vs ws : NoDup (map fst m) -> In (s, vs) m -> In (old, ws) m -> s <> old ->
  NoDup (map fst (replace_alloc m old s)) /\
  forall e, In e (replace_alloc m old s) <-> (e = (s, vs ++ old :: ws) \/ (In e m /\ fst e <> s /\ fst e <> old)).
Proof.
  intros N Hs Ho X. unfold replace_alloc, merge_storage, add_referring.
  set (m1 := update m s (fun vs0 => vs0 ++ [old])).
  assert (I1 : In (s, vs ++ [old]) m1) by (apply (update_in m s _ vs); auto).
  assert (N1 : NoDup (map fst m1)) by (unfold m1; rewrite (update_keys m s _ vs); auto).
  assert (O1 : In (old, ws) m1) by (apply (update_in m s _ vs); auto).
  rewrite (lookup_in m1 old ws N1 O1). split.
  - apply NoDup_filter_fst. rewrite (update_keys m1 s _ (vs ++ [old])); auto.
  - intros e. rewrite filter_In, (update_in m1 s _ (vs ++ [old])) by auto. unfold m1. rewrite (update_in m s _ vs) by auto.
    destruct (Nat.eqb_spec (fst e) old) as [E|E]; cbn; split.
    + intros [_ ?]; discriminate.
    + intros [->|(_ & _ & ?)]; [cbn in E; congruence|congruence].
    + intros [[->|[[->|[? ?]] ?]] _].
      * left. rewrite <- app_assoc. reflexivity.
      * cbn in *. congruence.
      * right; auto.
    + intros [->|(H1 & H2 & H3)]; (split; [|reflexivity]).
      * left. rewrite <- app_assoc. reflexivity.
      * right. split; auto.
Qed.

(** ** Static facts *)
Section Pass.
  Variable D : Type.
  Variable ev : nat -> list D -> D.
  Variable strict : bool.
  Variable b0 : block.
  Variable s0 : state D.
  Hypothesis good0 : good_state s0.
  Hypothesis ssa0 : ssa b0 s0.
  Hypothesis lev0 : levels_right b0.
  Hypothesis frag0 : lattigo_fragment b0.
  Notation ret := (rets b0).
  Notation n0 := (length (heap s0)).
  Notation L := (map res (code b0)).

  Record static (rest : list instr) (m : smap) : Prop := {
    S1 : NoDup (map fst m);
    S2 : forall e e' v, In e m -> In e' m -> In v (cls e) -> In v (cls e') -> e = e';
    S3 : forall e, In e m -> cls e = filter (fun v => mem_nat v (cls e)) L;
    S4 : forall e i, In e m -> In i rest -> In (res i) (snd e) ->
         exists f args dst, def i = IInPlace f args dst /\ In dst (cls e);
    S5 : forall e i, In e m -> In i rest -> res i = fst e -> exists k f args, def i = INew k f args;
    S6 : forall e i f args dst, In e m -> In i rest -> def i = IInPlace f args dst -> In dst (cls e) -> In (res i) (cls e);
    S7 : forall i k f args, In i rest -> def i = INew k f args -> exists e, In e m /\ fst e = res i;
    S8 : forall e v, In e m -> In v (cls e) -> made_here b0 v
  }.
  Lemma static_tail i rest m : static (i :: rest) m -> static rest m.
  Proof.
    intros [? ? ? A B C E ?]. constructor; auto; intros.
    - apply A; auto. right; auto.
    - eapply B; eauto. right; auto.
    - eapply C; eauto. right; auto.
    - eapply E; eauto. right; auto.
  Qed.

  Definition Sto (e : nat * list nat) : Prop := exists v, In v (cls e) /\ is_stored b0 v = true.

  Record dyn (pre rest : list instr) (t : state D) (e : nat * list nat) (lam : nat) : Prop := {
    K0 : n0 <= lam < length (heap t);
    K1 : forall v, In v (cls e) -> In v (map res pre) -> env t v = Some (Ptr lam);
    K2 : forall v, env t v = Some (Ptr lam) -> In v (cls e) \/ Sto e;
    K3 : forall v ls, env t v = Some (Vec ls) -> In lam ls -> Sto e \/ ~ needed rest ret v;
    K3b : forall cs, In cs (bufs t) -> In (Some lam) cs -> Sto e;
    K4 : Sto e \/ exists x i0, In i0 pre /\ res i0 = last (filter (fun v => mem_nat v (cls e)) (map res pre)) (fst e) /\
         nth_error (heap t) lam = Some (x, dep i0)
  }.

  Section Step.
    Variables (pre rest : list instr) (i : instr) (m : smap) (t : state D).
    Hypothesis C0 : code b0 = pre ++ i :: rest.
    Hypothesis ST : static (i :: rest) m.
    Hypothesis E1 : forall j, In j (i :: rest) -> env t (res j) = None.
    Hypothesis TB : forall v x l, env t v = Some x -> reach x l -> l < length (heap t).
    Hypothesis TB2 : forall cs l, In cs (bufs t) -> In (Some l) cs -> l < length (heap t).

    Lemma Lsplit : L = map res pre ++ res i :: map res rest.
    Proof. rewrite C0, map_app. reflexivity. Qed.
    Lemma nodupL : NoDup (map res pre ++ res i :: map res rest).
    Proof. rewrite <- Lsplit. apply (proj1 ssa0). Qed.
    Lemma i_in : In i (code b0).
    Proof. rewrite C0. apply in_or_app; right; left; auto. Qed.
    Lemma fresh_pre : ~ In (res i) (map res pre).
    Proof. intros H. pose proof nodupL as N. apply NoDup_remove_2 in N. apply N. apply in_or_app; auto. Qed.
    Lemma fresh_rest j : In j rest -> res j <> res i.
    Proof.
      intros H E. pose proof nodupL as N. apply NoDup_remove_2 in N. apply N. apply in_or_app; right.
      rewrite <- E. apply in_map; auto.
    Qed.
    Lemma same_instr j : In j (code b0) -> res j = res i -> j = i.
    Proof. intros H E. apply (NoDup_map_inj res (code b0)); auto. apply ssa0. apply i_in. Qed.
    Lemma executed e v : In e m -> In v (cls e) -> env t v <> None -> In v (map res pre).
    Proof.
      intros He Hv Hn. rewrite (S3 _ _ ST e He) in Hv. apply filter_In in Hv. destruct Hv as [Hv _].
      rewrite Lsplit in Hv. apply in_app_or in Hv. destruct Hv as [Hv|Hv]; auto. exfalso. apply Hn.
      change (In v (map res (i :: rest))) in Hv. apply in_map_iff in Hv. destruct Hv as (j & <- & Hj). auto.
    Qed.
    (** only in-place operations on the class add to it *)
    Lemma not_member e : In e m -> In (fst e) (map res pre) ->
      (forall f args dst, def i = IInPlace f args dst -> ~ In dst (cls e)) -> ~ In (res i) (cls e).
    Proof.
      intros He Hf H [X|X].
      - apply fresh_pre. rewrite <- X. auto.
      - destruct (S4 _ _ ST e i He (or_introl eq_refl) X) as (f & args & dst & Di & Hd). apply (H _ _ _ Di Hd).
    Qed.
    Lemma filter_skip e : ~ In (res i) (cls e) ->
      filter (fun v => mem_nat v (cls e)) (map res (pre ++ [i])) = filter (fun v => mem_nat v (cls e)) (map res pre).
    Proof.
      intros H. rewrite map_app, filter_app. cbn [map filter]. rewrite (proj2 (mem_nat_false _ _) H). apply app_nil_r.
    Qed.
    Lemma in_snoc v : In v (map res (pre ++ [i])) -> In v (map res pre) \/ v = res i.
    Proof. rewrite map_app. intros H. apply in_app_or in H. destruct H as [H|[<-|[]]]; auto. Qed.
    Lemma not_needed v : ~ needed (i :: rest) ret v -> ~ needed rest ret v.
    Proof. intros H X. apply H. apply needed_cons; auto. Qed.

    (** a step that defines at most [res i], not with a pointer to [lam], and keeps the cell *)
    Lemma dyn_frame e lam (t' : state D) i' : res i' = res i ->
      In e m -> In (fst e) (map res pre) -> dyn pre (i :: rest) t e lam -> ~ In (res i) (cls e) ->
      length (heap t) <= length (heap t') ->
      (forall v, v <> res i -> env t' v = env t v) ->
      (env t' (res i) = Some (Ptr lam) -> Sto e) ->
      (forall ls, env t' (res i) = Some (Vec ls) -> In lam ls -> Sto e \/ ~ needed rest ret (res i)) ->
      (forall cs, In cs (bufs t') -> In (Some lam) cs -> Sto e) ->
      (Sto e \/ nth_error (heap t') lam = nth_error (heap t) lam) ->
      dyn (pre ++ [i]) rest t' e lam.
    Proof.
      intros Ri He Hf K NM Hl Hv Hp Hc Hb Hh. constructor.
      - destruct (K0 _ _ _ _ _ K). lia.
      - intros v Hc' Hr. destruct (in_snoc v Hr) as [Hr'| ->]; [|tauto].
        rewrite Hv; [apply (K1 _ _ _ _ _ K); auto|]. intros ->; auto.
      - intros v E. destruct (Nat.eq_dec v (res i)) as [->|N]; [right; auto|]. rewrite Hv in E by auto. apply (K2 _ _ _ _ _ K); auto.
      - intros v ls E I. destruct (Nat.eq_dec v (res i)) as [->|N]; [eauto|]. rewrite Hv in E by auto.
        destruct (K3 _ _ _ _ _ K v ls E I); auto. right. apply not_needed; auto.
      - auto.
      - destruct (K4 _ _ _ _ _ K) as [|(x & i0 & A & B & C)]; auto. destruct Hh as [|Hh]; auto.
        right. exists x, i0. rewrite filter_skip by auto. rewrite Hh. repeat split; auto. apply in_or_app; auto.
    Qed.

    Lemma dyn_old e lam t' : In e m -> In (fst e) (map res pre) -> dyn pre (i :: rest) t e lam ->
      step D ev strict i t = Some t' -> dyn (pre ++ [i]) rest t' e lam.
    Proof.
      intros He Hf K S. pose proof (K0 _ _ _ _ _ K) as [Ka Kb].
      pose proof (frag0 i i_in) as FR.
      assert (ALLOC : forall c, (forall f args dst, def i <> IInPlace f args dst) -> dyn (pre ++ [i]) rest (alloc D t (res i) c) e lam).
      { intros c Hn. apply (dyn_frame e lam _ i); auto; cbn.
        - apply not_member; auto. intros f args dst Di. exfalso. apply (Hn _ _ _ Di).
        - rewrite app_length. lia.
        - intros v Hv. unfold set. destruct (Nat.eqb_spec v (res i)); [congruence|auto].
        - unfold set. rewrite Nat.eqb_refl. intros [= X]. lia.
        - unfold set. rewrite Nat.eqb_refl. discriminate.
        - apply (K3b _ _ _ _ _ K).
        - right. rewrite nth_error_app1 by lia. auto. }
      assert (DEF : forall x, (forall f args dst, def i <> IInPlace f args dst) ->
                (x = Ptr lam -> Sto e) -> (forall ls, x = Vec ls -> In lam ls -> Sto e \/ ~ needed rest ret (res i)) ->
                dyn (pre ++ [i]) rest (define D t (res i) x) e lam).
      { intros x Hn H1 H2. apply (dyn_frame e lam _ i); auto; cbn.
        - apply not_member; auto. intros f args dst Di. exfalso. apply (Hn _ _ _ Di).
        - intros v Hv. unfold set. destruct (Nat.eqb_spec v (res i)); [congruence|auto].
        - unfold set. rewrite Nat.eqb_refl. intros [= X]. auto.
        - unfold set. rewrite Nat.eqb_refl. intros ls [= X]. eauto.
        - apply (K3b _ _ _ _ _ K). }
      unfold step in S. destruct (def i) as [k f args|f args dst|tt k|c tt k|cs|n|mm k|c mm k|init trips f args|v] eqn:Di.
      - destruct (all (read D t) args); cbn [bind] in S; [|discriminate]. injection S as <-. apply ALLOC. congruence.
      - destruct (all (read D t) args) as [xs|]; cbn [bind] in S; [|discriminate].
        destruct (ptr D t dst) as [l|] eqn:P; cbn [bind] in S; [|discriminate].
        destruct (nth_error (heap t) l) as [c|] eqn:C; cbn [bind] in S; [|discriminate].
        destruct (negb strict || (snd c <=? dep i)); [|discriminate]. injection S as <-.
        apply ptr_env in P.
        destruct (in_dec Nat.eq_dec (res i) (cls e)) as [M|M].
        + assert (Hd : In dst (cls e)).
          { destruct M as [X|X]; [exfalso; apply fresh_pre; rewrite <- X; auto|].
            destruct (S4 _ _ ST e i He (or_introl eq_refl) X) as (f' & args' & dst' & Di' & Hd). congruence. }
          assert (l = lam).
          { assert (X : env t dst = Some (Ptr lam)) by (apply (K1 _ _ _ _ _ K); auto; apply (executed e); auto; congruence). congruence. }
          subst l. constructor; cbn [env heap bufs out alloc define].
          * rewrite length_put. lia.
          * intros v Hc Hr. unfold set. destruct (Nat.eqb_spec v (res i)) as [->|N]; auto.
            destruct (in_snoc v Hr); [|congruence]. apply (K1 _ _ _ _ _ K); auto.
          * intros v. unfold set. destruct (Nat.eqb_spec v (res i)) as [->|N]; auto. apply (K2 _ _ _ _ _ K).
          * intros v ls. unfold set. destruct (Nat.eqb_spec v (res i)) as [->|N]; [discriminate|].
            intros E I. destruct (K3 _ _ _ _ _ K v ls E I); auto. right. apply not_needed; auto.
          * apply (K3b _ _ _ _ _ K).
          * right. exists (ev f xs), i. rewrite map_app, filter_app. cbn [map filter].
            rewrite (proj2 (mem_nat_spec _ _) M), last_snoc. repeat split; auto.
            -- apply in_or_app; right; left; auto.
            -- rewrite nth_put, Nat.eqb_refl. replace (lam <? length (heap t)) with true by (symmetry; apply Nat.ltb_lt; auto). auto.
        + assert (LS : l = lam -> Sto e).
          { intros ->. destruct (K2 _ _ _ _ _ K dst P) as [X|X]; auto. exfalso. apply M.
            apply (S6 _ _ ST e i f args dst); auto. left; auto. }
          apply (dyn_frame e lam _ i); auto; cbn.
          * rewrite length_put. auto.
          * intros v Hv. unfold set. destruct (Nat.eqb_spec v (res i)); [congruence|auto].
          * unfold set. rewrite Nat.eqb_refl. intros [= X]. auto.
          * unfold set. rewrite Nat.eqb_refl. discriminate.
          * apply (K3b _ _ _ _ _ K).
          * rewrite nth_put. destruct (Nat.eqb_spec lam l); auto.
      - destruct (vec D t tt) as [ls|] eqn:V; cbn [bind] in S; [|discriminate].
        destruct (nth_error ls k) as [l|] eqn:N; cbn [bind] in S; [|discriminate]. injection S as <-.
        apply vec_env in V. apply DEF; try congruence. intros [= ->].
        destruct (K3 _ _ _ _ _ K tt ls V (nth_error_In _ _ N)) as [|X]; auto. exfalso. apply X.
        apply needed_here; rewrite Di; cbn; auto.
      - destruct (ptr D t c) as [l|] eqn:P; cbn [bind] in S; [|discriminate].
        destruct (vec D t tt) as [ls|] eqn:V; cbn [bind] in S; [|discriminate]. injection S as <-.
        apply vec_env in V. apply ptr_env in P. apply DEF; try congruence. intros ls' [= <-] I.
        apply in_put in I. destruct I as [<-|I].
        + destruct (K2 _ _ _ _ _ K c P) as [X|X]; auto. destruct (only_debug b0 (res i)) eqn:OD.
          * right. unfold only_debug in OD. apply andb_prop in OD. destruct OD as [O1 O2].
            intros [N|(j & Hj & Dj & Uj)].
            -- apply mem_nat_spec in N. rewrite N in O2. discriminate.
            -- rewrite forallb_forall in O1. specialize (O1 j). rewrite Dj, orb_false_r in O1.
               apply mem_nat_spec in Uj. rewrite Uj in O1. assert (In j (code b0)) by (rewrite C0; apply in_or_app; right; right; auto).
               specialize (O1 H). discriminate.
          * left. exists c. split; auto. unfold is_stored. apply orb_true_iff. left. apply existsb_exists. exists i.
            split; [apply i_in|]. unfold stored_by. rewrite Di, Nat.eqb_refl, OD. auto.
        + destruct (K3 _ _ _ _ _ K tt ls V I) as [|X]; auto. exfalso. apply X. apply needed_here; rewrite Di; cbn; auto.
      - destruct (all (ptr D t) cs) as [ls|] eqn:P; cbn [bind] in S; [|discriminate]. injection S as <-.
        apply DEF; try congruence. intros ls' [= <-] I. destruct (all_in _ _ _ _ P I) as (c & Hc & Pc). apply ptr_env in Pc.
        destruct (K2 _ _ _ _ _ K c Pc) as [X|X]; auto. exfalso. apply (FR c Hc). apply (S8 _ _ ST e c); auto.
      - injection S as <-. apply (dyn_frame e lam _ i); auto; cbn.
        + apply not_member; auto. congruence.
        + intros v Hv. unfold set. destruct (Nat.eqb_spec v (res i)); [congruence|auto].
        + unfold set. rewrite Nat.eqb_refl. discriminate.
        + unfold set. rewrite Nat.eqb_refl. discriminate.
        + intros cs H I. apply in_app_or in H. destruct H as [H|[<-|[]]]; [apply (K3b _ _ _ _ _ K cs); auto|].
          apply repeat_spec in I. discriminate.
      - destruct (buf D t mm) as [bb|] eqn:V; cbn [bind] in S; [|discriminate].
        destruct (nth_error (bufs t) bb) as [cs|] eqn:N; cbn [bind] in S; [|discriminate].
        destruct (nth_error cs k) as [o|] eqn:N2; cbn [bind] in S; [|discriminate].
        destruct o as [l|]; cbn [bind] in S; [|discriminate]. injection S as <-.
        apply DEF; try congruence. intros [= ->]. apply (K3b _ _ _ _ _ K cs); eapply nth_error_In; eauto.
      - destruct (ptr D t c) as [l|] eqn:P; cbn [bind] in S; [|discriminate].
        destruct (buf D t mm) as [bb|] eqn:V; cbn [bind] in S; [|discriminate].
        destruct (nth_error (bufs t) bb) as [cs|] eqn:N; cbn [bind] in S; [|discriminate]. injection S as <-.
        apply ptr_env in P. apply (dyn_frame e lam _ i); auto; cbn.
        + apply not_member; auto. congruence.
        + rewrite E1 by (left; auto). discriminate.
        + rewrite E1 by (left; auto). discriminate.
        + intros cs' H I. apply in_put in H. destruct H as [->|H]; [|apply (K3b _ _ _ _ _ K cs'); auto].
          apply in_put in I. destruct I as [[= <-]|I]; [|apply (K3b _ _ _ _ _ K cs); auto; eapply nth_error_In; eauto].
          destruct (K2 _ _ _ _ _ K c P) as [X|X]; auto. exists c. split; auto. unfold is_stored. apply orb_true_iff. left.
          apply existsb_exists. exists i. split; [apply i_in|]. unfold stored_by. rewrite Di. apply Nat.eqb_refl.
      - destruct (all (read D t) args) as [xs|]; cbn [bind] in S; [|discriminate].
        destruct (ptr D t init) as [l|] eqn:P; cbn [bind] in S; [|discriminate].
        destruct (nth_error (heap t) l) as [c|] eqn:C; cbn [bind] in S; [|discriminate].
        destruct trips as [|n]; [exfalso; apply FR; auto|]. injection S as <-. apply ALLOC. congruence.
      - destruct (env t v) as [x|]; cbn [bind] in S; [|discriminate]. injection S as <-.
        apply (dyn_frame e lam _ i); auto; cbn.
        + apply not_member; auto. congruence.
        + rewrite E1 by (left; auto). discriminate.
        + rewrite E1 by (left; auto). discriminate.
        + apply (K3b _ _ _ _ _ K).
    Qed.

    (** members of the class of an operation that has not been executed *)
    Lemma unexecuted e : In e m -> fst e = res i -> forall v, In v (cls e) -> ~ In v (map res pre).
    Proof.
      intros He Hf v Hv Hp. pose proof (S3 _ _ ST e He) as F. rewrite Lsplit, filter_app in F.
      destruct (filter (fun v => mem_nat v (cls e)) (map res pre)) as [|h tl] eqn:Fp.
      - assert (In v []); [|tauto]. rewrite <- Fp. apply filter_In. split; auto. apply mem_nat_spec; auto.
      - cbn [app] in F. unfold cls at 1 in F. injection F as F _. apply fresh_pre. rewrite <- Hf, F.
        assert (In h (h :: tl)) by (left; auto). rewrite <- Fp in H. apply filter_In in H. tauto.
    Qed.

    Lemma dyn_new e k f args t' : In e m -> fst e = res i -> def i = INew k f args ->
      n0 <= length (heap t) ->
      step D ev strict i t = Some t' -> dyn (pre ++ [i]) rest t' e (length (heap t)).
    Proof.
      intros He Hf Di HN S. unfold step in S. rewrite Di in S.
      destruct (all (read D t) args) as [xs|]; cbn [bind] in S; [|discriminate]. injection S as <-.
      constructor; cbn [env heap bufs out alloc define].
      - rewrite app_length. cbn. lia.
      - intros v Hv Hp. destruct (in_snoc v Hp) as [Hp'| ->].
        + exfalso. apply (unexecuted e He Hf v); auto.
        + unfold set. rewrite Nat.eqb_refl. auto.
      - intros v. unfold set. destruct (Nat.eqb_spec v (res i)) as [->|N].
        + left. unfold cls. left; auto.
        + intros E. apply TB with (l := length (heap t)) in E; [lia|reflexivity].
      - intros v ls. unfold set. destruct (Nat.eqb_spec v (res i)) as [->|N]; [discriminate|].
        intros E I. apply TB with (l := length (heap t)) in E; [lia|auto].
      - intros cs H I. specialize (TB2 cs _ H I). lia.
      - right. exists (ev f xs), i. rewrite map_app, filter_app. cbn [map filter].
        rewrite (proj2 (mem_nat_spec (res i) (cls e))) by (left; auto). rewrite last_snoc. repeat split; auto.
        + apply in_or_app; right; left; auto.
        + rewrite nth_error_app2, Nat.sub_diag by lia. auto.
    Qed.
  End Step.

  (** ** The walk *)
  Definition kinv (pre rest : list instr) (m : smap) (t : state D) : Prop :=
    forall e, In e m -> In (fst e) (map res pre) -> exists lam, dyn pre rest t e lam.

  Lemma steps_app is1 is2 s : steps D ev strict (is1 ++ is2) s = bind (steps D ev strict is1 s) (steps D ev strict is2).
  Proof.
    revert s; induction is1 as [|i is1 IH]; intros s; auto. cbn [app steps].
    destruct (step D ev strict i s); cbn [bind]; auto.
  Qed.
  Lemma steps_snoc is i s s1 : steps D ev strict is s = Some s1 -> steps D ev strict (is ++ [i]) s = step D ev strict i s1.
  Proof. intros H. rewrite steps_app, H. cbn. destruct (step D ev strict i s1); auto. Qed.

  Lemma inplace_res pre done : Forall2 inplace_of pre done -> map res done = map res pre.
  Proof.
    induction 1 as [|i i' pre done H _ IH]; cbn; auto. f_equal; auto.
    destruct H as [->|(k & f & args & dst & _ & _ & ->)]; auto.
  Qed.
  Lemma inplace_in pre done j : Forall2 inplace_of pre done -> In j done ->
    exists i, In i pre /\ res i = res j /\ lev i = lev j /\ dep i = dep j /\ (def j = def i \/ exists f args dst, def j = IInPlace f args dst).
  Proof.
    induction 1 as [|i i' pre done H _ IH]; cbn; [tauto|]. intros [<-|Hj].
    - exists i. split; auto. destruct H as [->|(k & f & args & dst & _ & _ & ->)]; cbn; auto. repeat split; auto. right. eauto.
    - destruct (IH Hj) as (i1 & ? & ?). exists i1. auto.
  Qed.
  Lemma inplace_in_rev pre done i : Forall2 inplace_of pre done -> In i pre ->
    exists j, In j done /\ res j = res i /\ (def j = def i \/ exists k f args dst, def i = INew k f args /\ def j = IInPlace f args dst).
  Proof.
    induction 1 as [|i1 i' pre done H _ IH]; cbn; [tauto|]. intros [<-|Hj].
    - exists i'. split; auto. destruct H as [->|(k & f & args & dst & E & _ & ->)]; cbn; auto. split; auto. right. eauto 6.
    - destruct (IH Hj) as (j & ? & ?). exists j. auto.
  Qed.

  Section Replace.
    Variables (pre done rest : list instr) (i : instr) (m : smap).
    Hypothesis C0 : code b0 = pre ++ i :: rest.
    Hypothesis FD : Forall2 inplace_of pre done.
    Hypothesis ST : static (i :: rest) m.
    Notation b := (Block (done ++ i :: rest) ret).

    Lemma only_debug_mono v : only_debug b v = true -> only_debug b0 v = true.
    Proof.
      unfold only_debug. rewrite !andb_true_iff, !forallb_forall. intros [H1 H2]. split; auto. cbn [code] in H1.
      intros j Hj. rewrite C0 in Hj. apply in_app_or in Hj. destruct Hj as [Hj|Hj].
      - destruct (inplace_in_rev _ _ _ FD Hj) as (j' & Hj' & _ & [E|(k & f & args & dst & E1 & E2)]).
        + rewrite <- E. apply H1. apply in_or_app; auto.
        + specialize (H1 j' (in_or_app _ _ _ (or_introl Hj'))). rewrite E1. rewrite E2 in H1. cbn in *.
          rewrite orb_false_r in *. apply negb_true_iff in H1. apply negb_true_iff. apply mem_nat_false. apply mem_nat_false in H1.
          intros X. apply H1. unfold all_uses in *. cbn in *. rewrite app_nil_r in *. apply in_or_app; auto.
      - apply H1. apply in_or_app; auto.
    Qed.
    Lemma stored_mono v : is_stored b0 v = true -> is_stored b v = true.
    Proof.
      unfold is_stored. rewrite !orb_true_iff, !existsb_exists. intros [(j & Hj & Sj)|H]; auto. left. cbn [code].
      assert (exists j', In j' (done ++ i :: rest) /\ res j' = res j /\ (def j' = def j \/ exists k f args dst, def j = INew k f args /\ def j' = IInPlace f args dst)) as (j' & A & B & C).
      { rewrite C0 in Hj. apply in_app_or in Hj. destruct Hj as [Hj|Hj].
        - destruct (inplace_in_rev _ _ _ FD Hj) as (j' & ? & ? & ?). exists j'. split; auto. apply in_or_app; auto.
        - exists j. split; auto. apply in_or_app; auto. }
      exists j'. split; auto. unfold stored_by in *. destruct C as [C|(k & f & args & dst & E & _)]; [|rewrite E in Sj; discriminate].
      rewrite C, B. destruct (def j); auto. apply andb_true_iff in Sj. destruct Sj as [S1' S2']. rewrite S1'. cbn.
      destruct (only_debug b (res j)) eqn:O; auto. apply only_debug_mono in O. rewrite O in S2'. auto.
    Qed.
    Lemma dead_not_needed v : dead_after_local b rest v = true -> ~ needed rest ret v.
    Proof.
      unfold dead_after_local. rewrite !andb_true_iff, !negb_true_iff. intros [[H1 H2] H3] [X|(j & Hj & _ & U)].
      - apply mem_nat_spec in X. cbn [rets] in H3. congruence.
      - unfold all_uses in U. apply in_app_or in U. destruct U as [U|U]; apply mem_nat_spec in U.
        + assert (existsb (fun i => mem_nat v (uses (def i))) rest = true) by (apply existsb_exists; eauto). congruence.
        + assert (existsb (fun i => mem_nat v (nested_uses (def i))) (done ++ i :: rest) = true).
          { apply existsb_exists. exists j. split; auto. apply in_or_app; right; right; auto. }
          cbn [code] in H1. congruence.
    Qed.
    Lemma level_b0 v d : level_of b v = Some d -> exists j, In j (code b0) /\ res j = v /\ lev j = Some d.
    Proof.
      unfold level_of. destruct (find _ (code b)) as [j|] eqn:F; [|discriminate]. apply find_some in F. destruct F as [F1 F2].
      apply Nat.eqb_eq in F2. intros E. cbn [code] in F1. apply in_app_or in F1. destruct F1 as [F1|F1].
      - destruct (inplace_in _ _ _ FD F1) as (j' & A & B & C & _). exists j'. repeat split; try congruence.
        rewrite C0. apply in_or_app; auto.
      - exists j. repeat split; auto. rewrite C0. apply in_or_app; auto.
    Qed.

    Section Chosen.
      Variables (e eo : nat * list nat) (k : kind) (f : nat) (args : list nat).
      Hypothesis Di : def i = INew k f args.
      Hypothesis He : In e m.
      Hypothesis Ho : In eo m.
      Hypothesis Hfo : fst eo = res i.
      Hypothesis AV : available b done rest (lev i) e = true.

      Lemma av_exec : In (fst e) (map res pre).
      Proof.
        unfold available in AV. destruct e as [s vs]. rewrite !andb_true_iff in AV. destruct AV as [[[A _] _] _].
        apply mem_nat_spec in A. rewrite (inplace_res _ _ FD) in A. auto.
      Qed.
      Lemma av_not_stored : ~ Sto e.
      Proof.
        intros (v & Hv & Sv). apply stored_mono in Sv.
        unfold available in AV. destruct e as [s vs]. rewrite !andb_true_iff, negb_true_iff, orb_false_iff in AV. destruct AV as [[[_ [A1 A2]] _] _].
        destruct Hv as [<-|Hv]; cbn in *; [congruence|].
        assert (existsb (is_stored b) vs = true) by (apply existsb_exists; eauto). congruence.
      Qed.
      Lemma av_dead v : In v (cls e) -> dead_after_local b rest v = true.
      Proof.
        unfold available in AV. destruct e as [s vs]. rewrite !andb_true_iff in AV. destruct AV as [_ [A B]].
        rewrite forallb_forall in A. intros [<-|H]; auto.
      Qed.
      Lemma av_level : exists d j, lev i = Some d /\ In j (code b0) /\ res j = last (snd e) (fst e) /\ dep j <= d.
      Proof.
        unfold available in AV. destruct e as [s vs]. rewrite !andb_true_iff in AV. destruct AV as [[_ A] _].
        unfold storage_level in A. destruct (lev i) as [d|]; [|discriminate]. cbn [fst snd] in *.
        destruct (level_of b (last vs s)) as [d'|] eqn:E; [|discriminate]. apply negb_true_iff, Nat.ltb_ge in A.
        destruct (level_b0 _ _ E) as (j & A1 & A2 & A3). exists d, j. rewrite (lev0 j d' A1 A3). auto.
      Qed.
      Lemma i_new_b0 : In i (code b0). Proof. rewrite C0. apply in_or_app; right; left; auto. Qed.
      Lemma neq_keys : fst e <> fst eo.
      Proof. rewrite Hfo. intros X. apply (fresh_pre pre rest i C0). rewrite <- X. apply av_exec. Qed.
      Lemma all_executed v : In v (cls e) -> In v (map res pre).
      Proof.
        intros Hv. pose proof Hv as Hv'. rewrite (S3 _ _ ST e He) in Hv'. apply filter_In in Hv'. destruct Hv' as [Hl _].
        rewrite C0, map_app in Hl. apply in_app_or in Hl. destruct Hl as [Hl|Hl]; auto.
        apply in_map_iff in Hl. destruct Hl as (j & <- & Hj). destruct Hv as [X|X]; [rewrite <- X; apply av_exec|].
        destruct (S4 _ _ ST e j He Hj X) as (f' & args' & dst & Dj & Hd).
        destruct Hj as [<-|Hj]; [congruence|]. exfalso. apply (dead_not_needed dst (av_dead dst Hd)).
        right. exists j. rewrite Dj. repeat split; auto. unfold all_uses. cbn. rewrite app_nil_r. apply in_or_app; right; left; auto.
      Qed.
      Lemma old_unexecuted v : In v (cls eo) -> ~ In v (map res pre).
      Proof. apply (unexecuted pre rest i m C0 ST eo Ho Hfo). Qed.

      Definition merged : nat * list nat := (fst e, snd e ++ res i :: snd eo).
      Notation m' := (replace_alloc m (res i) (fst e)).
      Lemma cls_merged v : In v (cls merged) <-> In v (cls e) \/ In v (cls eo).
      Proof.
        unfold merged, cls. cbn. rewrite in_app_iff. cbn. rewrite Hfo. tauto.
      Qed.
      Lemma m'_spec : NoDup (map fst m') /\ forall x, In x m' <-> (x = merged \/ (In x m /\ fst x <> fst e /\ fst x <> res i)).
      Proof.
        unfold merged. apply replace_spec.
        - apply (S1 _ _ ST).
        - destruct e; auto.
        - rewrite <- Hfo. destruct eo; auto.
        - rewrite <- Hfo. apply neq_keys.
      Qed.

      Lemma filter_e : filter (fun v => mem_nat v (cls e)) (map res pre) = cls e.
      Proof.
        pose proof (S3 _ _ ST e He) as F. rewrite C0, map_app, filter_app in F.
        rewrite (filter_nil _ (map res (i :: rest))), app_nil_r in F; auto.
        intros v Hv. apply mem_nat_false. intros X. apply all_executed in X.
        pose proof (nodupL pre rest i C0) as N. clear - N X Hv. change (res i :: map res rest) with (map res (i :: rest)) in N.
        apply (NoDup_disjoint _ _ _ N X Hv).
      Qed.
      Lemma filter_eo : filter (fun v => mem_nat v (cls eo)) (map res (i :: rest)) = cls eo.
      Proof.
        pose proof (S3 _ _ ST eo Ho) as F. rewrite C0, map_app, filter_app in F.
        rewrite (filter_nil _ (map res pre)) in F; auto.
        intros v Hv. apply mem_nat_false. intros X. apply (old_unexecuted v X Hv).
      Qed.

      Lemma static_replace : static rest m'.
      Proof.
        destruct m'_spec as [N SP]. constructor; auto.
        - assert (X : forall x v, In x m -> fst x <> fst e -> fst x <> res i -> In v (cls x) -> In v (cls merged) -> False).
          { intros x v Hx N1 N2 V1 V2. apply cls_merged in V2. destruct V2 as [V2|V2].
            - apply N1. rewrite (S2 _ _ ST x e v); auto.
            - apply N2. rewrite (S2 _ _ ST x eo v); auto. }
          intros x y v Hx Hy Vx Vy. apply SP in Hx. apply SP in Hy.
          destruct Hx as [->|(Hx1 & Hx2 & Hx3)], Hy as [->|(Hy1 & Hy2 & Hy3)]; auto.
          + exfalso. eapply X; [exact Hy1|..]; eauto.
          + exfalso. eapply X; [exact Hx1|..]; eauto.
          + eapply (S2 _ _ ST); eauto.
        - intros x Hx. apply SP in Hx. destruct Hx as [->|(Hx & _)]; [|apply (S3 _ _ ST); auto].
          rewrite C0, map_app, filter_app.
          rewrite (filter_ext_in' _ (fun v => mem_nat v (cls e)) (map res pre)).
          2:{ intros v Hv. apply eq_true_iff_eq. rewrite !mem_nat_spec, cls_merged. split; auto. intros [?|Y]; auto.
              exfalso. apply (old_unexecuted v Y Hv). }
          rewrite (filter_ext_in' _ (fun v => mem_nat v (cls eo)) (map res (i :: rest))).
          2:{ intros v Hv. apply eq_true_iff_eq. rewrite !mem_nat_spec, cls_merged. split; auto. intros [Y|?]; auto.
              exfalso. pose proof filter_e as FE. apply all_executed in Y. pose proof (nodupL pre rest i C0) as N'.
              change (res i :: map res rest) with (map res (i :: rest)) in N'. clear - N' Y Hv.
              apply (NoDup_disjoint _ _ _ N' Y Hv). }
          rewrite filter_e, filter_eo. unfold merged, cls. cbn. rewrite Hfo. reflexivity.
        - intros x j Hx Hj Hr. apply SP in Hx. destruct Hx as [->|(Hx & _)].
          + unfold merged in Hr. cbn in Hr. apply in_app_or in Hr. destruct Hr as [Hr|[Hr|Hr]].
            * destruct (S4 _ _ ST e j He (or_intror Hj) Hr) as (f' & args' & dst & Dj & Hd). exists f', args', dst. split; auto.
              apply cls_merged; auto.
            * exfalso. apply (fresh_rest pre rest i C0 j Hj). auto.
            * destruct (S4 _ _ ST eo j Ho (or_intror Hj) Hr) as (f' & args' & dst & Dj & Hd). exists f', args', dst. split; auto.
              apply cls_merged; auto.
          + apply (S4 _ _ ST); auto. right; auto.
        - intros x j Hx Hj Hr. apply SP in Hx. destruct Hx as [->|(Hx & _)].
          + apply (S5 _ _ ST e j); auto. right; auto.
          + apply (S5 _ _ ST x j); auto. right; auto.
        - intros x j f' args' dst Hx Hj Dj Hd. apply SP in Hx. destruct Hx as [->|(Hx & _)].
          + apply cls_merged. apply cls_merged in Hd. destruct Hd as [Hd|Hd].
            * left. eapply (S6 _ _ ST); eauto. right; auto.
            * right. eapply (S6 _ _ ST); eauto. right; auto.
          + eapply (S6 _ _ ST); eauto. right; auto.
        - intros j k' f' args' Hj Dj. destruct (S7 _ _ ST j k' f' args' (or_intror Hj) Dj) as (x & Hx & Fx).
          exists x. split; auto. apply SP. right. split; auto. rewrite Fx. split.
          + intros X. apply (fresh_rest pre rest i C0 j Hj). exfalso.
            pose proof av_exec as AE. rewrite <- X in AE. pose proof (nodupL pre rest i C0) as N'.
            apply NoDup_remove_1 in N'. assert (In (res j) (map res rest)) by (apply in_map; auto). clear - N' AE H.
            apply (NoDup_disjoint _ _ _ N' AE H).
          + apply (fresh_rest pre rest i C0 j Hj).
        - intros x v Hx Hv. apply SP in Hx. destruct Hx as [->|(Hx & _)]; [|eapply (S8 _ _ ST); eauto].
          apply cls_merged in Hv. destruct Hv; [apply (S8 _ _ ST e)|apply (S8 _ _ ST eo)]; auto.
      Qed.

      Lemma kinv_replace t lam xs :
        (forall j, In j (i :: rest) -> env t (res j) = None) ->
        kinv pre (i :: rest) m t -> dyn pre (i :: rest) t e lam ->
        kinv (pre ++ [i]) rest m'
          (State (set (res i) (Ptr lam) (env t)) (put (heap t) lam (ev f xs, dep i)) (bufs t) (out t)).
      Proof.
        intros E1 KI K x Hx Hf. destruct m'_spec as [_ SP]. apply SP in Hx. destruct Hx as [->|(Hx & N1 & N2)].
        - exists lam. pose proof (K0 _ _ _ _ _ K) as [Ka Kb]. constructor; cbn [env heap bufs out].
          + rewrite length_put. auto.
          + intros v Hv Hp. unfold set. destruct (Nat.eqb_spec v (res i)) as [->|N]; auto.
            destruct (in_snoc pre i v Hp) as [Hp'|]; [|congruence]. apply cls_merged in Hv. destruct Hv as [Hv|Hv].
            * apply (K1 _ _ _ _ _ K); auto.
            * exfalso. apply (old_unexecuted v Hv Hp').
          + intros v. unfold set. destruct (Nat.eqb_spec v (res i)) as [->|N].
            * intros _. left. apply cls_merged. right. rewrite <- Hfo. left; auto.
            * intros E. destruct (K2 _ _ _ _ _ K v E) as [X|X]; [left; apply cls_merged; auto|]. exfalso. apply av_not_stored; auto.
          + intros v ls. unfold set. destruct (Nat.eqb_spec v (res i)) as [->|N]; [discriminate|]. intros E I.
            destruct (K3 _ _ _ _ _ K v ls E I) as [X|X]; [exfalso; apply av_not_stored; auto|].
            right. intros Y. apply X. apply needed_cons; auto.
          + intros cs H I. exfalso. apply av_not_stored. apply (K3b _ _ _ _ _ K cs); auto.
          + right. exists (ev f xs), i. rewrite map_app, filter_app. cbn [map filter].
            rewrite (proj2 (mem_nat_spec (res i) (cls merged))) by (apply cls_merged; right; rewrite <- Hfo; left; auto).
            rewrite last_snoc. repeat split; auto.
            * apply in_or_app; right; left; auto.
            * rewrite nth_put, Nat.eqb_refl. replace (lam <? length (heap t)) with true by (symmetry; apply Nat.ltb_lt; auto). auto.
        - assert (Hp : In (fst x) (map res pre)).
          { destruct (in_snoc pre i _ Hf); auto. congruence. }
          destruct (KI x Hx Hp) as (lx & KX). exists lx.
          assert (NL : lx <> lam).
          { intros ->. destruct (K2 _ _ _ _ _ K (fst x)) as [X|X].
            - apply (K1 _ _ _ _ _ KX); auto. left; auto.
            - apply N1. rewrite (S2 _ _ ST x e (fst x)); auto. left; auto.
            - apply av_not_stored; auto. }
          apply (dyn_frame pre rest i m t x lx _ i); auto; cbn [env heap bufs out].
          + apply (not_member pre rest i m C0 ST); auto. intros; congruence.
          + rewrite length_put. auto.
          + intros v Hv. unfold set. destruct (Nat.eqb_spec v (res i)); [congruence|auto].
          + unfold set. rewrite Nat.eqb_refl. intros [= X]. congruence.
          + unfold set. rewrite Nat.eqb_refl. discriminate.
          + apply (K3b _ _ _ _ _ KX).
          + right. rewrite nth_put. destruct (Nat.eqb_spec lx lam); [congruence|auto].
      Qed.

      Lemma not_live phi s t lam : rel D n0 ret phi s t (i :: rest) -> dyn pre (i :: rest) t e lam ->
        forall l, live D n0 rest ret s l -> phi l <> lam.
      Proof.
        intros R K l Hl E. pose proof (K0 _ _ _ _ _ K) as [Ka Kb]. destruct Hl as [H|[H|(v & x & Nv & Ev & Rx)]].
        - rewrite (r_old _ _ _ _ _ _ _ R) in E by auto. lia.
        - destruct H as (cs & H1 & H2). apply av_not_stored. apply (K3b _ _ _ _ _ K (map (option_map phi) cs)).
          + rewrite (r_bufs _ _ _ _ _ _ _ R). apply in_map; auto.
          + apply in_map_iff. exists (Some l). cbn. split; congruence.
        - pose proof (r_env _ _ _ _ _ _ _ R v) as ET. rewrite Ev in ET. cbn in ET. destruct x; cbn in *.
          + subst. destruct (K2 _ _ _ _ _ K v ET) as [X|X]; [|apply av_not_stored; auto].
            apply (dead_not_needed v); auto. apply av_dead; auto.
          + destruct (K3 _ _ _ _ _ K v (map phi ls) ET) as [X|X].
            * rewrite <- E. apply in_map; auto.
            * apply av_not_stored; auto.
            * apply X. apply needed_cons; auto.
          + tauto.
      Qed.
      Lemma depth_ok t lam : dyn pre (i :: rest) t e lam -> exists c, nth_error (heap t) lam = Some c /\ snd c <= dep i.
      Proof.
        intros K. destruct (K4 _ _ _ _ _ K) as [X|(x & i0 & A & B & C)]; [exfalso; apply av_not_stored; auto|].
        exists (x, dep i0). split; auto. cbn. rewrite filter_e in B. unfold cls in B. rewrite last_cons in B.
        destruct av_level as (d & j & L1 & L2 & L3 & L4). rewrite (lev0 i d i_new_b0 L1).
        assert (j = i0); [|subst; auto]. apply (NoDup_map_inj res (code b0)); auto; try congruence.
        - apply ssa0.
        - rewrite C0. apply in_or_app; auto.
      Qed.
    End Chosen.

    Lemma no_memref k f args : def i = INew k f args -> k = KBinary -> memref_storage b rest (res i) args = None.
    Proof.
      intros Di ->. unfold memref_storage. match goal with |- hd_error ?l = None => assert (X : l = []); [|rewrite X; auto] end.
      pose proof (frag0 i i_new_b0) as FR. rewrite Di in FR.
      generalize (code b) at 1. induction l as [|j l IH]; cbn [flat_map]; auto. rewrite IH, app_nil_r.
      destruct (def j); auto. destruct (c =? res i); auto. apply filter_nil. intros v Hv.
      destruct (loaded_from b m0 i0 v) eqn:LF; auto. exfalso. unfold loaded_from in LF. apply existsb_exists in LF.
      destruct LF as (q & Hq & Q). destruct (def q) as [| | | | | |m1 i1| | |] eqn:Dq; try discriminate.
      rewrite !andb_true_iff in Q. destruct Q as [[Q _] _]. apply Nat.eqb_eq in Q. cbn [code] in Hq.
      apply in_app_or in Hq. destruct Hq as [Hq|Hq].
      - destruct (inplace_in _ _ _ FD Hq) as (q' & A & B & _ & _ & [E|(f1 & a1 & d1 & E)]); [|congruence].
        apply (FR v q' m1 i1); auto; try congruence. rewrite C0. apply in_or_app; auto.
      - apply (FR v q m1 i1); auto. rewrite C0. apply in_or_app; auto.
    Qed.
  End Replace.

  Lemma env_frame i (t t' : state D) v : v <> res i -> step D ev strict i t = Some t' -> env t' v = env t v.
  Proof.
    intros N S. assert (X : forall x e, set (res i) x e v = e v).
    { intros. unfold set. destruct (Nat.eqb_spec v (res i)); [congruence|auto]. }
    unfold step in S. destruct (def i);
      repeat (match type of S with
              | bind ?o _ = _ => destruct o; cbn [bind] in S; [|discriminate]
              | (if ?c then _ else _) = _ => destruct c; [|discriminate]
              | match ?n with 0 => _ | S _ => _ end = _ => destruct n
              end); injection S as <-; cbn; rewrite ?X; auto.
  Qed.

  Lemma walk_sim rest : forall pre done m s t phi,
    code b0 = pre ++ rest -> Forall2 inplace_of pre done -> steps D ev strict done s0 = Some t ->
    rel D n0 ret phi s t rest -> static rest m -> kinv pre rest m t ->
    (forall j, In j rest -> env t (res j) = None) ->
    forall s', steps D ev strict rest s = Some s' ->
    exists t' phi', steps D ev strict (walk done rest ret m) s0 = Some t' /\ rel D n0 ret phi' s' t' [] /\
      Forall2 inplace_of (code b0) (walk done rest ret m).
  Proof.
    induction rest as [|i rest IH]; intros pre done m s t phi C0 FD SD R ST KI E1 s' SS.
    { cbn in SS. injection SS as <-. cbn. rewrite app_nil_r in C0. exists t, phi. rewrite C0. auto. }
    cbn [steps] in SS. destruct (step D ev strict i s) as [s1|] eqn:S1s; cbn [bind] in SS; [|discriminate].
    assert (NN : n0 <= length (heap t)).
    { pose proof (r_n0 _ _ _ _ _ _ _ R) as A. destruct n0 as [|n] eqn:EN; [lia|].
      pose proof (r_bound _ _ _ _ _ _ _ R n A) as B. rewrite (r_old _ _ _ _ _ _ _ R) in B by lia. lia. }
    assert (TB : forall v x l, env t v = Some x -> reach x l -> l < length (heap t)) by (intros; eapply t_bound; eauto).
    assert (TB2 : forall cs l, In cs (bufs t) -> In (Some l) cs -> l < length (heap t)).
    { intros cs l H1 H2. rewrite (r_bufs _ _ _ _ _ _ _ R) in H1. apply in_map_iff in H1. destruct H1 as (cs' & <- & H1).
      apply in_map_iff in H2. destruct H2 as ([l'|] & E & H2); [|discriminate]. injection E as <-.
      apply (r_bound _ _ _ _ _ _ _ R). eapply good_in_bufs; [apply (r_good _ _ _ _ _ _ _ R)|]. exists cs'; auto. }
    assert (C1 : code b0 = (pre ++ [i]) ++ rest) by (rewrite <- app_assoc; auto).
    (* the operation stays *)
    assert (KEEP : exists t' phi', steps D ev strict (walk (done ++ [i]) rest ret m) s0 = Some t' /\ rel D n0 ret phi' s' t' [] /\
      Forall2 inplace_of (code b0) (walk (done ++ [i]) rest ret m)).
    { destruct (sim_same D ev strict _ _ _ _ _ _ _ R s1 S1s) as (t1 & phi1 & St & R1 & _).
      apply (IH (pre ++ [i]) (done ++ [i]) m s1 t1 phi1); auto.
      - apply Forall2_app; auto. constructor; auto. left; auto.
      - rewrite (steps_snoc done i s0 t SD). auto.
      - eapply static_tail; eauto.
      - intros e He Hf. rewrite map_app in Hf. apply in_app_or in Hf. destruct Hf as [Hf|[Hf|[]]].
        + destruct (KI e He Hf) as (lam & K). exists lam. eapply dyn_old; eauto.
        + destruct (S5 _ _ ST e i He (or_introl eq_refl) Hf) as (k & f & args & Di).
          exists (length (heap t)). eapply dyn_new; eauto.
      - intros j Hj. rewrite (env_frame i t t1); auto; [apply E1; right; auto|]. apply (fresh_rest pre rest i C0 j Hj). }
    cbn [walk]. destruct (def i) as [k f args| | | | | | | | |] eqn:Di; auto.
    destruct (choose (Block (done ++ i :: rest) ret) done rest m i k args) as [s2|] eqn:CH; auto.
    assert (exists e, In e m /\ fst e = s2 /\ available (Block (done ++ i :: rest) ret) done rest (lev i) e = true /\ k <> KOther) as (e & He & <- & AV & NK).
    { assert (Q : available_storage (Block (done ++ i :: rest) ret) done rest (lev i) m = Some s2 /\ k <> KOther).
      { unfold choose in CH. destruct k; [discriminate|split; [auto|discriminate]|].
        destruct (available_storage _ _ _ _ _); [split; [auto|discriminate]|].
        rewrite (no_memref pre done rest i C0 FD KBinary f args) in CH; auto. discriminate. }
      destruct Q as [Q NK]. unfold available_storage in Q. destruct (find _ m) as [e|] eqn:F; [|discriminate].
      cbn in Q. injection Q as <-. apply find_some in F. destruct F as [F1 F2]. exists e. auto. }
    destruct (S7 _ _ ST i k f args (or_introl eq_refl) Di) as (eo & Ho & Hfo).
    assert (Hex : In (fst e) (map res pre)) by (eapply av_exec; eauto).
    destruct (KI e He Hex) as (lam & K).
    assert (DO : exists c, nth_error (heap t) lam = Some c /\ snd c <= dep i) by (apply (depth_ok pre done rest i m C0 FD ST e k f args Di He AV t lam K)).
    destruct DO as (c & Hc & Hd).
    assert (EV : env t (fst e) = Some (Ptr lam)) by (apply (K1 _ _ _ _ _ K); auto; left; auto).
    destruct (sim_inplace D ev strict _ _ _ _ _ _ _ R k f args (fst e) lam c s1 Di S1s EV Hc (fun _ => Hd)) as (t1 & phi1 & xs & St & Et & R1 & _).
    { apply (not_live pre done rest i m C0 FD e eo f He Hfo AV phi s t lam R K). }
    apply (IH (pre ++ [i]) _ _ s1 t1 phi1); auto.
    - apply Forall2_app; auto. constructor; auto. right. exists k, f, args, (fst e). auto.
    - rewrite (steps_snoc done _ s0 t SD). auto.
    - apply (static_replace pre done rest i m C0 FD ST e eo k f args Di He Ho Hfo AV).
    - subst t1. apply (kinv_replace pre done rest i m C0 FD ST e eo k f args Di He Ho Hfo AV t lam xs E1 KI K).
    - intros j Hj. subst t1. cbn. unfold set. destruct (Nat.eqb_spec (res j) (res i)) as [X|X].
      + exfalso. apply (fresh_rest pre rest i C0 j Hj X).
      + apply E1. right; auto.
  Qed.
End Pass.
