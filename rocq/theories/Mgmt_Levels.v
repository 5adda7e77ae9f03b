From Coq Require Import List Bool Arith Lia.
From Verif Require Import Mgmt_Model Mgmt_Spec Mgmt_Proofs Mgmt_Passes Mgmt_Sim Mgmt_Sim2.
Import ListNotations.
Local Arguments Nat.ltb : simpl never.
Local Arguments Nat.leb : simpl never.

Definition is_some {A} (o : option A) : bool := match o with Some _ => true | None => false end.

(** * Ciphertexts among the operands *)
Lemma cts_In l a : In a (cts l) <-> In (Some a) l.
Proof.
  induction l as [|[b|] l IH]; cbn; [tauto| |].
  - rewrite IH. intuition congruence.
  - rewrite IH. split; [auto|]. intros [H|H]; [discriminate|auto].
Qed.
Lemma cts_nil l : cts l = [] <-> existsb is_some l = false.
Proof.
  induction l as [|[b|] l IH]; cbn; [tauto| |]; [split; discriminate|exact IH].
Qed.
Lemma cts_nil_all l : cts l = [] <-> Forall (fun o => o = None) l.
Proof.
  induction l as [|[b|] l IH]; cbn.
  - split; auto.
  - split; [discriminate|]. intros H. inversion H; discriminate.
  - rewrite IH. split; [constructor; auto|]. intros H. now inversion H.
Qed.
Lemma all_equal_iff l : all_equal l = true <-> forall a b, In a l -> In b l -> a = b.
Proof.
  destruct l as [|c l]; cbn; [tauto|]. rewrite forallb_forall. split.
  - intros H. assert (K : forall x, c = x \/ In x l -> x = c).
    { intros x [->|Hx]; [easy|]. symmetry. now apply Nat.eqb_eq, H. }
    intros a b Ha Hb. now rewrite (K a), (K b).
  - intros H x Hx. apply Nat.eqb_eq. auto.
Qed.

(** the maximum of a list that is not empty *)
Definition cmax (l : list nat) : option nat := match l with [] => None | a :: l => Some (fold_right Nat.max a l) end.
Lemma fold_max_ge a l x : In x (a :: l) -> x <= fold_right Nat.max a l.
Proof.
  induction l as [|b l IH]; cbn.
  - intros [->|[]]. lia.
  - intros [->|[->|H]]; [|lia|]; [specialize (IH (or_introl eq_refl)); lia|specialize (IH (or_intror H)); lia].
Qed.
Lemma fold_max_In a l : In (fold_right Nat.max a l) (a :: l).
Proof.
  induction l as [|b l IH]; cbn; [auto|].
  destruct (Nat.max_spec b (fold_right Nat.max a l)) as [[_ E]|[_ E]]; rewrite E; [|auto].
  destruct IH as [H|H]; auto.
Qed.
Lemma cmax_spec l m : cmax l = Some m <-> (In m l /\ forall x, In x l -> x <= m).
Proof.
  destruct l as [|a l]; cbn [cmax].
  - split; [discriminate|]. intros [[] _].
  - split.
    + intros [= <-]. split; [apply fold_max_In|]. intros; now apply fold_max_ge.
    + intros [H1 H2]. f_equal. apply Nat.le_antisymm; [apply H2, fold_max_In|now apply fold_max_ge].
Qed.
Lemma cmax_none l : cmax l = None <-> l = [].
Proof. destruct l; cbn; split; congruence. Qed.
Lemma hd_cmax l : all_equal l = true -> hd_error l = cmax l.
Proof.
  intros H. rewrite all_equal_iff in H. destruct l as [|a l]; [easy|]. cbn [hd_error]. symmetry.
  apply cmax_spec. split; [now left|]. intros x Hx. rewrite (H x a); cbn; auto.
Qed.

(** * Machines *)
(** everything relaxed: the level is the largest *)
Definition rx_g (k : opk) (l : list (option nat)) : option (option nat) :=
  match k with
  | ModReduce => match l with [Some a] => Some (Some (a + 1)) | _ => Some None end
  | LevelReduce j => match l with [Some a] => Some (Some (a + j)) | _ => Some None end
  | LevelReduceMin => Some (cmax (cts l))
  | _ => Some (cmax (cts l))
  end.
(** relaxed only on the operations that the cross-level pass handles *)
Definition rl_g (k : opk) (l : list (option nat)) : option (option nat) :=
  match k with
  | ModReduce => match l with [Some a] => Some (Some (a + 1)) | _ => None end
  | LevelReduce j => match l with [Some a] => Some (Some (a + j)) | _ => None end
  | LevelReduceMin => None
  | Init => match l with [y] => Some y | _ => None end
  | _ => if matched k || all_equal (cts l) then Some (cmax (cts l)) else None
  end.
(** depth, where operations that are not handled need one level *)
Definition dq_g (k : opk) (l : list (option nat)) : option (option nat) :=
  match k with
  | Init => match l with [y] => Some y | _ => None end
  | Mul => Some (option_map S (cmax (cts l)))
  | ModReduce | LevelReduce _ | LevelReduceMin | Relin | AdjustScale _ => None
  | _ => if matched k || all_equal (cts l) then Some (cmax (cts l)) else None
  end.

Lemma rl_rx k l a : rl_g k l = Some a -> rx_g k l = Some a.
Proof.
  destruct k; cbn [rl_g rx_g]; try (destruct (matched _ || _); congruence).
  - destruct l as [|[b|] [|]]; cbn; congruence.
  - destruct l as [|[b|] [|]]; congruence.
  - destruct l as [|[b|] [|]]; congruence.
  - discriminate.
Qed.
Lemma run_impl {A} (g g' : opk -> list A -> option A) e p F :
  (forall k l a, g k l = Some a -> g' k l = Some a) -> run g e p = Some F -> run g' e p = Some F.
Proof.
  intros H. revert e. induction p as [|i p IH]; intros e R; cbn in *; [easy|].
  destruct (g _ _) as [a|] eqn:E; [|easy]. rewrite (H _ _ _ E). auto.
Qed.

(** * Secretness *)
Definition optg (g : opk -> list (option nat) -> option (option nat)) : Prop :=
  forall k l a, g k l = Some a -> is_some a = existsb is_some l.
Lemma cmax_some l : is_some (cmax (cts l)) = existsb is_some l.
Proof.
  destruct (cts l) as [|a c] eqn:E.
  - cbn. symmetry. now apply cts_nil.
  - cbn. destruct (existsb is_some l) eqn:X; [easy|]. apply cts_nil in X. congruence.
Qed.
Lemma hd_some l : is_some (hd_error (cts l)) = existsb is_some l.
Proof. rewrite <- cmax_some. now destruct (cts l). Qed.
Lemma lev_optg L : optg (lev_g L).
Proof.
  intros k l a. destruct k; cbn [lev_g];
    try (destruct (all_equal _); [intros [= <-]; apply hd_some|discriminate]).
  - destruct l as [|[b|] [|]]; try discriminate. destruct (_ <=? _); [|discriminate]. now intros [= <-].
  - destruct l as [|[b|] [|]]; try discriminate. destruct (_ <=? _); [|discriminate]. now intros [= <-].
  - destruct l as [|[b|] [|]]; try discriminate. now intros [= <-].
Qed.
Lemma rl_optg : optg rl_g.
Proof.
  intros k l a. destruct k; cbn [rl_g];
    try (destruct (matched _ || _); [intros [= <-]; apply cmax_some|discriminate]).
  - destruct l as [|y [|]]; try discriminate. intros [= <-]. cbn. now rewrite orb_false_r.
  - destruct l as [|[b|] [|]]; try discriminate. now intros [= <-].
  - destruct l as [|[b|] [|]]; try discriminate. now intros [= <-].
  - discriminate.
Qed.
Lemma run_unary e p F : run rl_g e p = Some F -> Forall (fun i =>
  match op i with ModReduce | LevelReduce _ | Init => length (args i) = 1 | LevelReduceMin => False | _ => True end) p.
Proof.
  revert e. induction p as [|i p IH]; intros e R; constructor; cbn in R;
    destruct (rl_g _ _) as [a|] eqn:G; try easy; [|eapply IH; exact R].
  rewrite <- (map_length e).
  destruct (op i); auto; cbn in G.
  - destruct (map e (args i)) as [|y [|]]; easy.
  - destruct (map e (args i)) as [|[y|] [|]]; easy.
  - destruct (map e (args i)) as [|[y|] [|]]; easy.
  - easy.
Qed.
Lemma depth_cmax k l : depth_g k l = Some (option_map (fun d => d + match k with Mul => 1 | _ => 0 end) (cmax (cts l))).
Proof. unfold depth_g. now destruct (cts l). Qed.
Lemma is_some_map {A B} (f : A -> B) o : is_some (option_map f o) = is_some o.
Proof. now destruct o. Qed.
Lemma depth_optg : optg depth_g.
Proof. intros k l a. rewrite depth_cmax. intros [= <-]. rewrite is_some_map. apply cmax_some. Qed.
Lemma dq_optg : optg dq_g.
Proof.
  intros k l a. destruct k; cbn [dq_g]; try discriminate;
    try (destruct (matched _ || _); [intros [= <-]; apply cmax_some|discriminate]).
  - intros [= <-]. rewrite is_some_map. apply cmax_some.
  - destruct l as [|y [|]]; try discriminate. intros [= <-]. cbn. now rewrite orb_false_r.
Qed.

Lemma secret_run g p a F : optg g -> run g (inputs p a) (body p) = Some F -> forall v, secret p v = is_some (F v).
Proof.
  intros H. unfold secret.
  assert (K : forall p e st F, (forall v, st v = is_some (e v)) -> run g e p = Some F ->
                forall v, flow sec_tf st p v = is_some (F v)).
  { clear - H. induction p as [|i p IH]; intros e st F He R v; cbn in *.
    - injection R as <-. auto.
    - destruct (g _ _) as [a|] eqn:G; [|easy]. eapply IH; [|exact R].
      intros u. unfold upd. destruct (u =? res i); [|auto].
      rewrite (H _ _ _ G). unfold sec_tf. clear - He. induction (args i) as [|x l IHl]; cbn; [easy|].
      now rewrite He, IHl. }
  apply K. intros v. unfold inputs. now destruct (mem v (sargs p)).
Qed.

(** * The level analysis computes the relaxed levels *)
Lemma existsb_In_some (l : list (option nat)) : existsb is_some l = true <-> exists a, In (Some a) l.
Proof.
  rewrite existsb_exists. split.
  - intros ([a|] & H & E); [eauto|discriminate].
  - intros (a & H). exists (Some a). auto.
Qed.

Definition lrel (b : nat) (o : option nat) (l : lvl) : Prop :=
  match o with
  | Some a => (l = LInt a /\ a <= b) \/ l = LInvalid
  | None => l = LUninit \/ l = LInt 0
  end.
Definition lexact (o : option nat) (l : lvl) : Prop :=
  match o with Some a => l = LInt a | None => l = LUninit \/ l = LInt 0 end.

Lemma fold_ljoin_invalid ls : fold_left ljoin ls LInvalid = LInvalid.
Proof. now induction ls. Qed.
Lemma fold_ljoin_In_invalid ls acc : In LInvalid ls -> fold_left ljoin ls acc = LInvalid.
Proof.
  revert acc. induction ls as [|x ls IH]; intros acc H; cbn; [easy|].
  destruct H as [->|H]; [|now apply IH].
  destruct acc; cbn; apply fold_ljoin_invalid.
Qed.
(** joins of integers *)
Definition lval (l : lvl) : option nat := match l with LInt a => Some a | _ => None end.
Lemma fold_ljoin_ints ls acc :
  (forall l, In l ls -> l = LUninit \/ exists a, l = LInt a) -> (acc = LUninit \/ exists a, acc = LInt a) ->
  fold_left ljoin ls acc = match cmax (cts (lval acc :: map lval ls)) with Some a => LInt a | None => LUninit end.
Proof.
  revert acc. induction ls as [|x ls IH]; intros acc H Ha.
  - cbn. destruct Ha as [->|(a & ->)]; easy.
  - cbn [fold_left]. rewrite IH.
    + destruct (H x (or_introl eq_refl)) as [->|(b & ->)], Ha as [->|(a & ->)]; cbn; try easy.
      do 2 f_equal. induction (cts (map lval ls)) as [|y l IHl]; cbn; [|rewrite IHl]; lia.
    + intros; apply H; now right.
    + destruct (H x (or_introl eq_refl)) as [->|(b & ->)], Ha as [->|(a & ->)]; cbn; eauto.
Qed.

Lemma Forall2_map_lr {A B C} (P : B -> C -> Prop) (f : A -> B) (h : A -> C) l :
  (forall x, In x l -> P (f x) (h x)) -> Forall2 P (map f l) (map h l).
Proof. induction l; cbn; constructor; auto. Qed.

Lemma derive_default k ls :
  match k with ModReduce | LevelReduce _ | LevelReduceMin => False | _ => True end ->
  derive_level k ls = fold_left ljoin ls LUninit.
Proof. now destruct k. Qed.

(** default operations *)
Lemma fold_lrel b os ls m :
  Forall2 (lrel b) os ls -> cmax (cts os) = Some m ->
  fold_left ljoin ls LUninit = LInvalid \/ (fold_left ljoin ls LUninit = LInt m /\ m <= b).
Proof.
  intros F H. destruct (in_dec (fun x y : lvl => ltac:(decide equality; apply Nat.eq_dec)) LInvalid ls) as [I|NI].
  - left. now apply fold_ljoin_In_invalid.
  - right.
    assert (K : forall l, In l ls -> l = LUninit \/ exists a, l = LInt a).
    { intros l Hl. clear H. induction F as [|o l' os ls Ho F IH]; [easy|].
      destruct Hl as [->|Hl]; [|apply IH; [|easy]; intros C; apply NI; now right].
      destruct o; cbn in Ho.
      - destruct Ho as [[-> _]| ->]; eauto. destruct NI. now left.
      - destruct Ho as [->| ->]; eauto. }
    rewrite fold_ljoin_ints by auto. cbn [lval].
    assert (E : cmax (cts (None :: map lval ls)) = Some m); [|rewrite E; split; [easy|]].
    + apply cmax_spec in H as (H1 & H2). apply cmax_spec. cbn [cts].
      assert (L1 : forall a, In (Some a) os -> In (Some a) (map lval ls) /\ a <= b).
      { intros a Ha. clear H1 H2 K. induction F as [|o l' os ls Ho F IH]; [easy|].
        destruct Ha as [->|Ha].
        - cbn in Ho. destruct Ho as [[-> ?]| ->]; [split; [now left|easy]|]. destruct NI. now left.
        - destruct IH; auto. { intros C; apply NI; now right. } split; [now right|easy]. }
      assert (L2 : forall a, In (Some a) (map lval ls) -> In (Some a) os \/ a = 0).
      { intros a Ha. clear H1 H2 K L1. induction F as [|o l' os ls Ho F IH]; [easy|].
        destruct Ha as [Ha|Ha].
        - destruct o; cbn in Ho.
          + destruct Ho as [[-> ?]| ->]; [|discriminate]. injection Ha as ->. left. now left.
          + destruct Ho as [->| ->]; [discriminate|]. injection Ha as <-. auto.
        - destruct IH; auto. { intros C; apply NI; now right. } left; now right. }
      rewrite cts_In in *. split; [now apply L1|].
      intros x Hx. rewrite cts_In in Hx. apply L2 in Hx as [Hx| ->]; [|lia]. apply H2. now rewrite cts_In.
    + apply cmax_spec in H as (H1 & _). apply cts_In in H1. clear E K.
      induction F as [|o l' os ls Ho F IH]; [easy|]. destruct H1 as [->|H1].
      * cbn in Ho. destruct Ho as [[_ ?]| ->]; [easy|]. destruct NI. now left.
      * apply IH; auto. intros C; apply NI; now right.
Qed.
Lemma fold_lnone b os ls :
  Forall2 (lrel b) os ls -> cmax (cts os) = None ->
  fold_left ljoin ls LUninit = LUninit \/ fold_left ljoin ls LUninit = LInt 0.
Proof.
  intros F H. apply cmax_none, cts_nil_all in H.
  assert (K : Forall (fun l => l = LUninit \/ l = LInt 0) ls).
  { induction F; [constructor|]. inversion H; subst. constructor; auto. }
  clear - K. assert (G : forall acc, (acc = LUninit \/ acc = LInt 0) ->
    fold_left ljoin ls acc = LUninit \/ fold_left ljoin ls acc = LInt 0).
  { induction K as [|l ls [->| ->] K IH]; intros acc [->| ->]; cbn; auto. }
  auto.
Qed.

(** operations of which the level analysis gives the relaxed level *)
Definition unary_ok (i : inst) : Prop :=
  match op i with
  | ModReduce | LevelReduce _ | Init => length (args i) = 1
  | LevelReduceMin => False
  | _ => True
  end.

Lemma level_tf_lrel b (sec : nat -> bool) st e i a :
  unary_ok i -> (forall v, In v (args i) -> lrel b (e v) (st v)) -> rx_g (op i) (map e (args i)) = Some a ->
  sec (res i) = is_some a -> lrel b a (level_tf sec b st i).
Proof.
  intros U H G S. unfold level_tf.
  assert (F : Forall2 (lrel b) (map e (args i)) (map st (args i))) by now apply Forall2_map_lr.
  assert (Def : derive_level (op i) (map st (args i)) = fold_left ljoin (map st (args i)) LUninit ->
    a = cmax (cts (map e (args i))) ->
    lrel b a (if match op i with Init => true | _ => sec (res i) end
     then match derive_level (op i) (map st (args i)) with LInt l => if b <? l then LInvalid else LInt l | o => o end
     else LUninit)).
  { intros -> Ea. destruct a as [m|].
    - replace (match op i with Init => true | _ => sec (res i) end) with true by (destruct (op i); auto).
      destruct (fold_lrel b _ _ m F (eq_sym Ea)) as [->|[-> Hm]]; cbn [lrel]; auto.
      rewrite (proj2 (Nat.ltb_ge _ _) Hm). auto.
    - destruct (match op i with Init => true | _ => sec (res i) end); cbn [lrel]; auto.
      destruct (fold_lnone b _ _ F (eq_sym Ea)) as [->| ->]; auto. }
  assert (Red : forall k, (op i = ModReduce /\ k = 1) \/ op i = LevelReduce k ->
    lrel b a (if match op i with Init => true | _ => sec (res i) end
     then match derive_level (op i) (map st (args i)) with LInt l => if b <? l then LInvalid else LInt l | o => o end
     else LUninit)).
  { intros k Hk.
    assert (L1 : length (args i) = 1).
    { unfold unary_ok in U. destruct Hk as [[Hk _]|Hk]; rewrite Hk in U; exact U. }
    destruct (args i) as [|v [|]] eqn:Ea; try discriminate L1.
    assert (D : derive_level (op i) (map st [v]) = reduce_level k (st v)).
    { destruct Hk as [[-> ->]| ->]; cbn; destruct (st v); easy. }
    assert (Gk : a = option_map (fun x => x + k) (e v)).
    { destruct Hk as [[Hk ->]|Hk]; rewrite Hk in G; cbn in G; destruct (e v); injection G as <-; easy. }
    replace (match op i with Init => true | _ => sec (res i) end) with (is_some a)
      by (destruct Hk as [[-> _]| ->]; auto).
    rewrite D. pose proof (H v (or_introl eq_refl)) as Hv. destruct (e v) as [x|]; cbn in Gk; subst a; cbn.
    - cbn in Hv. destruct Hv as [[-> Hv]| ->]; cbn; [|auto].
      destruct (b <? x + k) eqn:Lt; [auto|]. apply Nat.ltb_ge in Lt. auto.
    - auto. }
  destruct (op i) eqn:Eo; cbn [rx_g] in G;
    try (apply Def; [reflexivity|congruence]);
    try (apply (Red 1); auto; fail); try (eapply Red; eauto; fail).
  unfold unary_ok in U. rewrite Eo in U. easy.
Qed.

Lemma flow_level sec b d p e st F :
  ssa d p -> Forall unary_ok p -> run rx_g e p = Some F ->
  (forall v, lrel b (e v) (st v)) -> (forall v, In v (map res p) -> sec v = is_some (F v)) ->
  forall v, lrel b (F v) (flow (level_tf sec b) st p v).
Proof.
  revert d e st. induction p as [|i p IH]; intros d e st Sd U R H Hs v; cbn in R, Sd |- *.
  - injection R as <-. auto.
  - destruct Sd as (Ia & Nd & Sd). inversion U as [|? ? U1 U2]; subst.
    destruct (rx_g _ _) as [a|] eqn:G; [|easy].
    eapply IH; [exact Sd|exact U2|exact R| |].
    + intros u. unfold upd. destruct (u =? res i); [|auto].
      eapply level_tf_lrel; eauto. rewrite Hs by (cbn; auto).
      now rewrite (run_final _ _ _ _ _ (res i) Sd R), upd_same by (cbn; auto).
    + intros u Hu. apply Hs. cbn; auto.
Qed.
Lemma flow_exact sec b d p e st F :
  ssa d p -> Forall unary_ok p -> run rx_g e p = Some F ->
  (forall v, lexact (e v) (st v)) -> (forall v, In v (map res p) -> sec v = is_some (F v)) ->
  (forall v a, In v (map res p) -> F v = Some a -> a <= b) -> (forall v a, e v = Some a -> a <= b) ->
  forall v, lexact (F v) (flow (level_tf sec b) st p v).
Proof.
  revert d e st. induction p as [|i p IH]; intros d e st Sd U R H Hs Hb He v; cbn in R, Sd |- *.
  - injection R as <-. auto.
  - destruct Sd as (Ia & Nd & Sd). inversion U as [|? ? U1 U2]; subst.
    destruct (rx_g _ _) as [a|] eqn:G; [|easy].
    assert (Fa : F (res i) = a) by now rewrite (run_final _ _ _ _ _ (res i) Sd R), upd_same by (cbn; auto).
    assert (Ba : forall x, a = Some x -> x <= b) by (intros x ->; eapply Hb; [now left|exact Fa]).
    eapply IH; [exact Sd|exact U2|exact R| | | |].
    + intros u. unfold upd. destruct (u =? res i); [|auto].
      (* apply the weak lemma with a budget at least as large, then read off *)
      assert (Hw : forall v, In v (args i) -> lrel b (e v) (st v)).
      { intros w _. specialize (H w). unfold lexact in H. destruct (e w) eqn:Ew; cbn; eauto. }
      assert (Sr : sec (res i) = is_some a) by (rewrite Hs, Fa by (cbn; auto); easy).
      pose proof (level_tf_lrel b sec st e i a U1 Hw G Sr) as K.
      unfold lrel, lexact in *. destruct a as [m|]; [|exact K]. destruct K as [[K _]|K]; [exact K|exfalso].
      (* the result cannot be invalid *)
      specialize (Ba m eq_refl). revert K. unfold level_tf.
      assert (NI : ~ In LInvalid (map st (args i))).
      { rewrite in_map_iff. intros (w & Ew & _). specialize (H w). rewrite Ew in H. destruct (e w); [congruence|]. destruct H; congruence. }
      destruct (match op i with Init => true | _ => sec (res i) end); [|discriminate].
      assert (Dv : derive_level (op i) (map st (args i)) <> LInvalid /\
                   (forall l, derive_level (op i) (map st (args i)) = LInt l -> l <= b)).
      { assert (F2 : Forall2 (lrel b) (map e (args i)) (map st (args i))) by now apply Forall2_map_lr.
        assert (Def : derive_level (op i) (map st (args i)) = fold_left ljoin (map st (args i)) LUninit ->
                      Some m = cmax (cts (map e (args i))) ->
                      derive_level (op i) (map st (args i)) <> LInvalid /\
                      (forall l, derive_level (op i) (map st (args i)) = LInt l -> l <= b)).
        { intros -> Em. 
          assert (Kk : forall l, In l (map st (args i)) -> l = LUninit \/ exists a, l = LInt a).
          { intros l Hl. apply in_map_iff in Hl as (w & <- & _). specialize (H w).
            destruct (e w); [eauto|]. destruct H; eauto. }
          destruct (fold_lrel b _ _ m F2 (eq_sym Em)) as [E|[E Le]].
          - rewrite fold_ljoin_ints in E by auto.
            match type of E with match ?x with _ => _ end = _ => destruct x end; discriminate.
          - rewrite E. split; [discriminate|]. now intros l [= <-]. }
        assert (Red : forall k, (op i = ModReduce /\ k = 1) \/ op i = LevelReduce k ->
                      derive_level (op i) (map st (args i)) <> LInvalid /\
                      (forall l, derive_level (op i) (map st (args i)) = LInt l -> l <= b)).
        { intros k Hk.
          assert (L1 : length (args i) = 1).
          { unfold unary_ok in U1. destruct Hk as [[Hk _]|Hk]; rewrite Hk in U1; exact U1. }
          destruct (args i) as [|w [|]] eqn:Ea; try discriminate L1.
          assert (D : derive_level (op i) (map st [w]) = reduce_level k (st w)).
          { destruct Hk as [[-> ->]| ->]; cbn; destruct (st w); easy. }
          assert (Gk : Some m = option_map (fun x => x + k) (e w)).
          { destruct Hk as [[Hk ->]|Hk]; rewrite Hk in G; cbn in G; destruct (e w); cbn; congruence. }
          rewrite D. pose proof (H w) as Hv. destruct (e w) as [x|]; [|discriminate]. rewrite Hv.
          cbn in Gk |- *. split; [discriminate|]. intros l [= <-]. injection Gk as ->. exact Ba. }
        destruct (op i) eqn:Eo; cbn [rx_g] in G;
          try (apply Def; [reflexivity|congruence]);
          try (apply (Red 1); auto; fail); try (eapply Red; eauto; fail).
        unfold unary_ok in U1. rewrite Eo in U1. easy. }
      destruct Dv as (D1 & D2). destruct (derive_level _ _) as [|l| |]; try congruence.
      specialize (D2 l eq_refl). rewrite (proj2 (Nat.ltb_ge _ _) D2). discriminate.
    + intros u Hu. apply Hs. cbn; auto.
    + intros u x Hu. apply Hb. cbn; auto.
    + intros u x. unfold upd. destruct (u =? res i); [auto|]. apply He.
Qed.
