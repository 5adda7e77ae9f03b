From Coq Require Import ZArith QArith List Bool Lia Arith.
From Verif Require Import Mgmt_Model Mgmt_Spec Mgmt_Proofs Mgmt_Passes Scale_Model Scale_Proofs ScaleCkks_Model ScaleCkks_Spec.
Import ListNotations.
Open Scope Z_scope.
Local Arguments Z.add : simpl never.
Local Arguments Z.sub : simpl never.
Local Arguments Z.ltb : simpl never.
Local Arguments Z.quot : simpl never.
Local Arguments Nat.ltb : simpl never.
Local Arguments Nat.eqb : simpl never.

(** * A function that satisfies the equations of the analysis is its result *)
Lemma flow_fix {A} (tf : (nat -> A) -> inst -> A) (f : nat -> A) :
  (forall st st' i, (forall v, In v (args i) -> st v = st' v) -> tf st i = tf st' i) ->
  forall p d st, ssa d p -> (forall v, In v d -> st v = f v) -> (forall i, In i p -> tf f i = f (res i)) ->
  forall v, In v (d ++ map res p) -> flow tf st p v = f v.
Proof.
  intros L. induction p as [|i p IH]; intros d st S B H v.
  - cbn. rewrite app_nil_r. apply B.
  - destruct S as (I & N & S). cbn [flow map]. intros K. apply (IH (res i :: d)); [exact S| | |].
    + intros u [<-|U].
      * rewrite upd_same. rewrite <- (H i) by now left. apply L. intros w W. apply B. now apply I.
      * rewrite upd_other by congruence. now apply B.
    + intros j J. apply H. now right.
    + apply in_app_iff in K as [K|[K|K]]; cbn; rewrite ?in_app_iff; auto.
Qed.
Lemma sec_local st st' i : (forall v, In v (args i) -> st v = st' v) -> sec_tf st i = sec_tf st' i.
Proof.
  intros H. unfold sec_tf. induction (args i) as [|v l IH]; cbn; [easy|].
  rewrite (H v) by now left. f_equal. apply IH. intros; apply H; now right.
Qed.
Lemma operand_scales_local ad st st' l : (forall v, In v l -> st v = st' v) -> operand_scales ad st l = operand_scales ad st' l.
Proof.
  intros H. induction l as [|v l IH]; cbn; [easy|]. rewrite (H v) by now left. rewrite IH; [easy|].
  intros; apply H; now right.
Qed.
Lemma ckks_local tm P s0 lev att p st st' i :
  (forall v, In v (args i) -> st v = st' v) -> ckks_tf tm P s0 lev att p st i = ckks_tf tm P s0 lev att p st' i.
Proof.
  intros H. unfold ckks_tf. rewrite (operand_scales_local _ st st'); [easy|].
  intros v I. apply filter_In in I as (I & _). now apply H.
Qed.

(** * What the insertion does to the operands of one operation *)
Definition want (P : ckks) (sec mg : nat -> bool) (st : smap) (lev : nat -> nat) (i : inst) (v : nat) : option Z :=
  match op i with
  | Add | Sub | Ins =>
      match filter mg (args i) with
      | _ :: _ :: _ =>
          match all_scales st (filter mg (args i)) with
          | Some (a :: l) => if mg v && match st v with Some x => x <? max_scale a l | None => false end
                             then Some (max_scale a l) else None
          | _ => None
          end
      | _ => None
      end
  | Mul =>
      match args i with
      | [lhs; rhs] =>
          if sec lhs || sec rhs then
            match st lhs, st rhs with
            | Some a, Some b =>
                let T := target P (lev (res i)) in
                if a + b <? T then
                  if (lhs =? rhs)%nat then if (v =? lhs)%nat then Some (Z.quot (T + 1) 2) else None
                  else if a <? b then if (v =? lhs)%nat then Some (T - b) else None
                  else if (v =? rhs)%nat then Some (T - a) else None
                else None
            | _, _ => None
            end
          else None
      | _ => None
      end
  | ModReduce =>
      match args i with
      | [u] => if sec u then
                 match st u with
                 | Some a => if a - lq_at P (lev u) <? ld P then if (v =? u)%nat then Some (target P (lev u)) else None else None
                 | None => None
                 end
               else None
      | _ => None
      end
  | _ => None
  end.

Definition later (s s' : cstate) : Prop :=
  (c_next s <= c_next s')%nat /\
  forall v, (v < c_next s)%nat -> c_att s' v = c_att s v /\ c_lev s' v = c_lev s v.
Lemma later_refl s : later s s.
Proof. split; [lia|easy]. Qed.
Lemma later_trans s1 s2 s3 : later s1 s2 -> later s2 s3 -> later s1 s3.
Proof.
  intros (A & B) (C & D). split; [lia|]. intros v H.
  destruct (D v) as (-> & ->); [lia|]. now apply B.
Qed.
Lemma later_adjust s v t : later s (snd (adjust s v t)).
Proof. split; cbn; [lia|]. intros u H. rewrite !upd_other by lia. easy. Qed.

(** an adjust_scale of operand v to scale t *)
Definition adjusts (s s' : cstate) (v : nat) (t : Z) (j : inst) : Prop :=
  (exists k, op j = AdjustScale k) /\ args j = [v] /\ (c_next s <= res j < c_next s')%nat /\
  c_att s' (res j) = Some t /\ c_lev s' (res j) = c_lev s v.
Lemma adjusts_self s v t : (v < c_next s)%nat -> adjusts s (snd (adjust s v t)) v t (fst (adjust s v t)).
Proof.
  intros H. unfold adjusts, adjust; cbn. rewrite !upd_same. repeat split; eauto; lia.
Qed.
Lemma adjusts_later s0 s s' s'' v t j : later s0 s -> (v < c_next s0)%nat -> later s' s'' ->
  adjusts s s' v t j -> adjusts s0 s'' v t j.
Proof.
  intros (N & L) V (N' & L') (O & A & B & C & D). destruct (L' (res j)) as (EA & EL); [lia|]. unfold adjusts. rewrite EA, EL.
  repeat split; auto; try lia. rewrite D. now apply L.
Qed.

(** the operands and the adjust_scales before the operation *)
Record stepped (s s' : cstate) (w : nat -> option Z) (l l' : list nat) (adj : list inst) : Prop := {
  sp_later : later s s';
  sp_chain : chain l (c_next s) adj (c_next s');
  sp_in : forall v, In v l' -> In v l \/ (c_next s <= v < c_next s')%nat;
  sp_args : Forall2 (fun v v' => match w v with None => v' = v | Some t => exists j, In j adj /\ args j = [v] /\ res j = v' end) l l';
  sp_adj : forall j, In j adj -> exists v t, In v l /\ w v = Some t /\ adjusts s s' v t j
}.
Lemma stepped_none s w l : (forall v, In v l -> w v = None) -> stepped s s w l l [].
Proof.
  intros H. constructor.
  - apply later_refl.
  - cbn. reflexivity.
  - auto.
  - induction l as [|v l IH]; constructor.
    + now rewrite (H v (or_introl eq_refl)).
    + apply IH. intros; apply H; now right.
  - easy.
Qed.
Lemma raise_stepped mg st m l : forall s, (forall v, In v l -> (v < c_next s)%nat) ->
  let '(q, l', s') := raise mg st m s l in
  stepped s s' (fun v => if mg v && match st v with Some x => x <? m | None => false end then Some m else None) l l' q.
Proof.
  induction l as [|v l IH]; intros s B; cbn [raise].
  - now apply stepped_none.
  - destruct (mg v && _) eqn:E.
    + destruct (adjust s v m) as [j s1] eqn:A.
      assert (Bv : (v < c_next s)%nat) by (apply B; now left).
      pose proof (later_adjust s v m) as L1. pose proof (adjusts_self s v m Bv) as J. rewrite A in L1, J. cbn in L1, J.
      assert (N1 : c_next s1 = S (c_next s) /\ res j = c_next s /\ args j = [v]) by (unfold adjust in A; injection A as <- <-; easy).
      destruct N1 as (N1 & Rj & Aj).
      specialize (IH s1). destruct (raise mg st m s1 l) as [[q l'] s2].
      destruct IH as [L C I F K]; [intros u U; assert (u < c_next s)%nat by (apply B; now right); lia|].
      pose proof (later_trans _ _ _ L1 L) as L2. constructor.
      * exact L2.
      * cbn. split; [easy|]. split; [rewrite Aj; intros u [<-|[]]; now left|]. rewrite <- N1.
        eapply chain_mono; [|exact C]. intros u U. right. now right.
      * intros u [<-|U]; [right; destruct L; lia|]. destruct (I u U) as [|]; [left; now right|right; lia].
      * constructor.
        -- rewrite E. exists j. repeat split; auto. now left.
        -- eapply Forall2_impl; [|exact F]. cbn. intros u u' _ _. destruct (mg u && _); [|easy].
           intros (j' & J1 & J2). exists j'. split; [now right|easy].
      * intros j' [<-|J'].
        -- exists v, m. split; [now left|]. rewrite E. split; [easy|].
           eapply adjusts_later; [apply later_refl|exact Bv|exact L|exact J].
        -- destruct (K j' J') as (u & t & U & W & X). exists u, t. split; [now right|]. split; [exact W|].
           eapply adjusts_later; [exact L1| |apply later_refl|exact X]. apply B. now right.
    + specialize (IH s). destruct (raise mg st m s l) as [[q l'] s2].
      destruct IH as [L C I F K]; [intros; apply B; now right|]. constructor.
      * exact L.
      * eapply chain_mono; [|exact C]. intros u U. now right.
      * intros u [<-|U]; [left; now left|]. destruct (I u U); [left; now right|now right].
      * constructor; [now rewrite E|exact F].
      * intros j' J'. destruct (K j' J') as (u & t & U & X). exists u, t. split; [now right|exact X].
Qed.
Lemma raise_chain mg st m l : forall s,
  let '(q, l', s') := raise mg st m s l in
  chain l (c_next s) q (c_next s') /\ forall v, In v l' -> In v l \/ (c_next s <= v < c_next s')%nat.
Proof.
  induction l as [|v l IH]; intros s; cbn [raise]; [now split|].
  destruct (mg v && _).
  - unfold adjust. set (s1 := Cs _ _ _ _ _). specialize (IH s1). destruct (raise mg st m s1 l) as [[q l'] s2].
    destruct IH as (C & I). pose proof (chain_le _ _ _ _ C) as Le. subst s1. cbn in C, I, Le. split.
    + cbn. split; [easy|]. split; [intros u [<-|[]]; now left|]. eapply chain_mono; [|exact C]. intros u U. right. now right.
    + intros u [<-|U]; cbn; [right; lia|]. destruct (I u U) as [|]; [left; now right|right; lia].
  - specialize (IH s). destruct (raise mg st m s l) as [[q l'] s2]. destruct IH as (C & I). split.
    + eapply chain_mono; [|exact C]. intros u U. now right.
    + intros u [<-|U]; [left; now left|]. destruct (I u U); [left; now right|now right].
Qed.

Lemma replace_one v w l : Forall2 (fun u u' => if (u =? v)%nat then u' = w else u' = u) l (replace v w l).
Proof. induction l as [|u l IH]; cbn; constructor; [|easy]. now destruct (u =? v)%nat. Qed.
Lemma adjust_stepped s v t l : In v l -> (forall u, In u l -> (u < c_next s)%nat) ->
  stepped s (snd (adjust s v t)) (fun u => if (u =? v)%nat then Some t else None) l
    (replace v (c_next s) l) [fst (adjust s v t)].
Proof.
  intros I B. constructor.
  - apply later_adjust.
  - cbn. split; [easy|]. split; [|easy]. intros u [<-|[]]. exact I.
  - intros u U. apply replace_In in U as [->|U]; [right; cbn; lia|now left].
  - eapply Forall2_impl; [|apply replace_one]. cbn. intros u u' _ _. destruct (Nat.eqb_spec u v); [|easy].
    intros ->. subst. eexists. split; [now left|]. easy.
  - intros j [<-|[]]. exists v, t. split; [exact I|]. rewrite Nat.eqb_refl. split; [easy|]. apply adjusts_self. now apply B.
Qed.
Lemma stepped_ext s s' w w' l l' adj : (forall v, In v l -> w v = w' v) -> stepped s s' w l l' adj -> stepped s s' w' l l' adj.
Proof.
  intros H [L C I F K]. constructor; auto.
  - eapply Forall2_impl; [|exact F]. intros u u' U _. cbn. now rewrite (H u U).
  - intros j J. destruct (K j J) as (v & t & V & W & X). exists v, t. rewrite <- (H v V). auto.
Qed.
Lemma inst_eta i : Inst (op i) (args i) (res i) = i.
Proof. now destruct i. Qed.

Section Step.
  Variables (P : ckks) (sec mg : nat -> bool) (st : smap).
  Notation step := (adjust_op P sec mg st).

  Lemma step_spec s i : (forall v, In v (args i) -> (v < c_next s)%nat) ->
    exists adj l, fst (step s i) = adj ++ [Inst (op i) l (res i)] /\
      stepped s (snd (step s i)) (want P sec mg st (c_lev s) i) (args i) l adj.
  Proof.
    intros B. assert (Same : forall s', later s s' -> c_next s' = c_next s -> (forall v, In v (args i) -> want P sec mg st (c_lev s) i v = None) ->
      exists adj l, [i] = adj ++ [Inst (op i) l (res i)] /\ stepped s s' (want P sec mg st (c_lev s) i) (args i) l adj).
    { intros s' L N W. exists [], (args i). split; [cbn; now rewrite inst_eta|]. destruct (stepped_none s _ _ W) as [L' C I F K].
      constructor; [exact L|exact N|now left|exact F|easy]. }
    assert (St : later s (snd (stuck s i))) by (split; cbn; [lia|easy]).
    assert (Adds : (op i = Add \/ op i = Sub \/ op i = Ins) -> exists adj l, fst (step s i) = adj ++ [Inst (op i) l (res i)] /\
      stepped s (snd (step s i)) (want P sec mg st (c_lev s) i) (args i) l adj).
    { intros O. unfold adjust_op, want in *.
      destruct O as [O|[O|O]]; rewrite O in Same |- *;
      (destruct (filter mg (args i)) as [|u [|v r]] eqn:Fm;
       [apply Same; [apply later_refl|easy|easy]|apply Same; [apply later_refl|easy|easy]|
        destruct (all_scales st (u :: v :: r)) as [[|a l]|] eqn:E; [now apply Same|
          pose proof (raise_stepped mg st (max_scale a l) (args i) s B) as K;
          destruct (raise mg st (max_scale a l) s (args i)) as [[q l'] s']; exists q, l'; split; [easy|exact K]
          |now apply Same]]). }
    destruct (op i) eqn:O; try (apply Adds; rewrite ?O; now auto); unfold adjust_op, want in *; rewrite O in Same |- *;
      try (apply Same; [apply later_refl|easy|easy]).
    - clear Adds. destruct (args i) as [|u [|v [|]]] eqn:A; try (apply Same; [apply later_refl|easy|easy]).
      destruct (sec u || sec v); [|apply Same; [apply later_refl|easy|easy]].
      destruct (st u) as [a|]; [|now apply Same]. destruct (st v) as [b|]; [|now apply Same].
      cbv zeta in *. destruct (a + b <? target P (c_lev s (res i))); [|apply Same; [apply later_refl|easy|easy]].
      assert (G : forall to t, In to [u; v] -> exists adj l,
        fst (let '(j, s') := adjust s to t in ([j; Inst Mul (replace to (res j) [u; v]) (res i)], s')) = adj ++ [Inst Mul l (res i)] /\
        stepped s (snd (let '(j, s') := adjust s to t in ([j; Inst Mul (replace to (res j) [u; v]) (res i)], s')))
          (fun x => if (x =? to)%nat then Some t else None) [u; v] l adj).
      { intros to t I. pose proof (adjust_stepped s to t [u; v] I B) as X.
        exists [fst (adjust s to t)], (replace to (c_next s) [u; v]). split; [easy|]. exact X. }
      destruct (Nat.eqb_spec u v).
      + apply (G u). now left.
      + destruct (a <? b); [apply (G u); now left|apply (G v); right; now left].
    - clear Adds. destruct (args i) as [|u [|]] eqn:A; try (apply Same; [apply later_refl|easy|easy]).
      destruct (sec u); [|apply Same; [apply later_refl|easy|easy]].
      destruct (st u) as [a|]; [|now apply Same].
      destruct (a - lq_at P (c_lev s u) <? ld P); [|apply Same; [apply later_refl|easy|easy]].
      pose proof (adjust_stepped s u (target P (c_lev s u)) [u] (or_introl eq_refl) B) as X. cbn in X. rewrite Nat.eqb_refl in X.
      eexists [_], _. split; [reflexivity|]. exact X.
  Qed.
  Lemma step_emits s i : emits (c_next s) i (fst (step s i)) (c_next (snd (step s i))).
  Proof.
    assert (Same : forall s', c_next s' = c_next s -> emits (c_next s) i [i] (c_next s')) by (intros s' ->; apply emits_self).
    assert (Adj : forall to t k, In to (args i) -> emits (c_next s) i
       (fst (let '(j, s') := adjust s to t in ([j; Inst k (replace to (res j) (args i)) (res i)], s')))
       (c_next (snd (let '(j, s') := adjust s to t in ([j; Inst k (replace to (res j) (args i)) (res i)], s'))))).
    { intros to t k I. unfold adjust. cbn. apply (emits_before _ _ [_]).
      - cbn. split; [easy|]. split; [|easy]. now intros u [<-|[]].
      - intros u U. apply replace_In in U as [->|U]; [right; lia|now left]. }
    unfold adjust_op. destruct (op i) eqn:O; try apply emits_self.
    1,2,3: destruct (filter mg (args i)) as [|x1 [|x2 xs]]; [apply emits_self|apply emits_self|];
      destruct (all_scales st _) as [[|a ms]|]; [now apply Same| |now apply Same];
      pose proof (raise_chain mg st (max_scale a ms) (args i) s) as K; destruct (raise mg st (max_scale a ms) s (args i)) as [[q l'] s'];
      destruct K as (C & I); now apply emits_before.
    - destruct (args i) as [|u [|v [|]]] eqn:A; try apply emits_self.
      destruct (sec u || sec v); [|apply emits_self]. destruct (st u) as [a|]; [|now apply Same]. destruct (st v) as [b|]; [|now apply Same].
      cbv zeta. destruct (a + b <? target P (c_lev s (res i))); [|apply emits_self].
      destruct (Nat.eqb_spec u v); [apply Adj; now left|]. destruct (a <? b); apply Adj; cbn; auto.
    - destruct (args i) as [|u [|]] eqn:A; try apply emits_self.
      destruct (sec u); [|apply emits_self]. destruct (st u) as [a|]; [|now apply Same].
      destruct (a - lq_at P (c_lev s u) <? ld P); [|apply emits_self].
      pose proof (Adj u (target P (c_lev s u)) ModReduce (or_introl eq_refl)) as X. cbn in X. rewrite Nat.eqb_refl in X. exact X.
  Qed.
End Step.

Lemma want_ext P sec mg st lev lev' i v :
  lev (res i) = lev' (res i) -> (forall u, In u (args i) -> lev u = lev' u) -> want P sec mg st lev i v = want P sec mg st lev' i v.
Proof.
  intros H K. unfold want. destruct (op i); try easy.
  - destruct (args i) as [|u [|w [|]]]; try easy. now rewrite H.
  - destruct (args i) as [|u [|]]; try easy. rewrite (K u); [easy|now left].
Qed.

Section Walk.
  Variables (P : ckks) (sec mg : nat -> bool) (st : smap) (lev : nat -> nat) (N : nat).
  Notation step := (adjust_op P sec mg st).
  Notation wanted := (want P sec mg st lev).
  Definition isadj (s : cstate) (v : nat) (t : Z) (j : inst) : Prop :=
    (exists k, op j = AdjustScale k) /\ args j = [v] /\ (N <= res j)%nat /\ c_att s (res j) = Some t /\ c_lev s (res j) = lev v.
  Definition linked (s : cstate) (b : list inst) (i : inst) (v v' : nat) : Prop :=
    match wanted i v with None => v' = v | Some t => exists j, In j b /\ res j = v' /\ isadj s v t j end.
  Record walked (l : list inst) (s : cstate) (b : list inst) (s' : cstate) : Prop := {
    wk_later : later s s';
    wk_all : forall i, In i l -> exists l', In (Inst (op i) l' (res i)) b /\ Forall2 (linked s' b i) (args i) l';
    wk_each : forall j, In j b -> (exists i v t, In i l /\ In v (args i) /\ wanted i v = Some t /\ isadj s' v t j) \/
      (exists i l', In i l /\ j = Inst (op i) l' (res i) /\ Forall2 (linked s' b i) (args i) l');
    wk_next : forall j, In j b -> (res j < c_next s')%nat
  }.
  Lemma isadj_later s s' v t j : later s s' -> (res j < c_next s)%nat -> isadj s v t j -> isadj s' v t j.
  Proof.
    intros (L & K) B (A1 & A2 & A3 & A4 & A5). destruct (K (res j) B) as (E1 & E2). unfold isadj. rewrite E1, E2. auto.
  Qed.
  Lemma linked_mono s s' b b' i v v' : later s s' -> (forall j, In j b -> (res j < c_next s)%nat) -> incl b b' ->
    linked s b i v v' -> linked s' b' i v v'.
  Proof.
    intros L B I. unfold linked. destruct (wanted i v); [|easy]. intros (j & J & R & X). exists j. split; [now apply I|].
    split; [easy|]. eapply isadj_later; eauto.
  Qed.
  Lemma walk_spec l : forall s, Mgmt_Proofs.below N l -> (N <= c_next s)%nat -> (forall v, (v < N)%nat -> c_lev s v = lev v) ->
    walked l s (fst (walk step s l)) (snd (walk step s l)).
  Proof.
    induction l as [|i l IH]; intros s B Ge Lv; cbn [walk].
    - constructor; cbn; try easy; apply later_refl.
    - destruct (B i (or_introl eq_refl)) as (Bi & Ba).
      destruct (step_spec P sec mg st s i) as (adj & l' & Eq & [SL SC SI SA SJ]); [intros v V; specialize (Ba v V); lia|].
      destruct (step s i) as [q s1] eqn:St. cbn [fst snd] in *.
      assert (We : forall v, want P sec mg st (c_lev s) i v = wanted i v).
      { intros v. apply want_ext; [now apply Lv|]. intros u U. apply Lv. now apply Ba. }
      assert (Q1 : forall j, In j q -> (res j < c_next s1)%nat).
      { intros j J. rewrite Eq in J. apply in_app_iff in J as [J|[<-|[]]].
        - destruct (SJ j J) as (v & t & _ & _ & (_ & _ & R & _)). lia.
        - cbn. destruct SL. lia. }
      assert (Ad : forall j, In j adj -> exists v t, In v (args i) /\ wanted i v = Some t /\ isadj s1 v t j).
      { intros j J. destruct (SJ j J) as (v & t & V & Wt & (A1 & A2 & A3 & A4 & A5)). exists v, t. split; [easy|].
        rewrite <- We. split; [easy|]. unfold isadj. repeat split; auto; [lia|]. rewrite A5. apply Lv. now apply Ba. }
      assert (Lk : Forall2 (linked s1 q i) (args i) l').
      { eapply Forall2_impl; [|exact SA]. cbn. intros v v' V _. rewrite We. unfold linked. destruct (wanted i v) as [t|] eqn:Wt; [|easy].
        intros (j & J & A & R). exists j. split; [rewrite Eq; apply in_app_iff; now left|]. split; [easy|].
        destruct (Ad j J) as (u & t' & _ & W' & X). assert (u = v) by (destruct X as (_ & X & _); congruence). subst u.
        congruence. }
      assert (B' : Mgmt_Proofs.below N l) by (intros j J; apply B; now right).
      specialize (IH s1 B'). destruct SL as (Le & Lx).
      destruct IH as [WL WA WE WN]; [lia|intros v V; destruct (Lx v); [lia|]; rewrite H0; now apply Lv|].
      destruct (walk step s1 l) as [r s2] eqn:Wk. cbn [fst snd] in *.
      constructor.
      + eapply later_trans; [|exact WL]. now split.
      + intros x [<-|X].
        * exists l'. split; [rewrite Eq; rewrite !in_app_iff; left; right; now left|].
          eapply Forall2_impl; [|exact Lk]. intros v v' _ _. apply (linked_mono s1 s2); auto. apply incl_appl, incl_refl.
        * destruct (WA x X) as (l'' & I & F). exists l''. split; [apply in_app_iff; now right|].
          eapply Forall2_impl; [|exact F]. intros v v' _ _. apply (linked_mono s2 s2); [apply later_refl|exact WN|]. apply incl_appr, incl_refl.
      + intros j J. apply in_app_iff in J as [J|J].
        * pose proof J as J0. rewrite Eq in J. apply in_app_iff in J as [J|[<-|[]]].
          -- left. destruct (Ad j J) as (v & t & V & Wt & X). exists i, v, t. split; [now left|]. repeat (split; [easy|]).
             eapply isadj_later; [exact WL|now apply Q1|exact X].
          -- right. exists i, l'. split; [now left|]. split; [easy|].
             eapply Forall2_impl; [|exact Lk]. intros v v' _ _. apply (linked_mono s1 s2); auto. apply incl_appl, incl_refl.
        * destruct (WE j J) as [(x & v & t & X & K)|(x & l'' & X & E & F)].
          -- left. exists x, v, t. split; [now right|exact K].
          -- right. exists x, l''. split; [now right|]. split; [easy|].
             eapply Forall2_impl; [|exact F]. intros v v' _ _. apply (linked_mono s2 s2); [apply later_refl|exact WN|]. apply incl_appr, incl_refl.
      + intros j J. apply in_app_iff in J as [J|J]; [|now apply WN]. apply Q1 in J. destruct WL. lia.
  Qed.
  (** getScale finds a scale *)
  Definition readable (i : inst) : Prop :=
    match op i with
    | Add | Sub | Ins => (length (filter mg (args i)) >= 2)%nat -> forall v, In v (args i) -> mg v = true -> st v <> None
    | Mul => existsb sec (args i) = true -> forall v, In v (args i) -> st v <> None
    | ModReduce => forall v, In v (args i) -> sec v = true -> st v <> None
    | _ => True
    end.
  Lemma all_scales_some vs : (forall v, In v vs -> st v <> None) -> exists l, all_scales st vs = Some l /\ Forall2 (fun v s => st v = Some s) vs l.
  Proof.
    induction vs as [|v vs IH]; intros H; cbn; [eauto|].
    destruct (st v) as [s|] eqn:E; [|destruct (H v (or_introl eq_refl) E)].
    destruct IH as (l & -> & F); [intros; apply H; now right|]. cbn. eauto.
  Qed.
  Lemma raise_ok m l : forall s, c_ok (snd (raise mg st m s l)) = c_ok s.
  Proof.
    induction l as [|v l IH]; intros s; cbn [raise]; [easy|]. destruct (mg v && _).
    - unfold adjust. set (s1 := Cs _ _ _ _ _). specialize (IH s1). destruct (raise mg st m s1 l) as [[q l'] s2]. cbn in *. exact IH.
    - specialize (IH s). destruct (raise mg st m s l) as [[q l'] s2]. exact IH.
  Qed.
  Lemma step_ok s i : readable i -> c_ok (snd (step s i)) = c_ok s.
  Proof.
    unfold readable, adjust_op. destruct (op i); try easy.
    1,2,3: intros H; destruct (filter mg (args i)) as [|x1 [|x2 xs]] eqn:F; [easy|easy|];
      destruct (all_scales_some (x1 :: x2 :: xs)) as (ls & E & F2);
      [intros v V; rewrite <- F in V; apply filter_In in V as (V1 & V2); apply H; [cbn; lia|easy|easy]|];
      rewrite E; destruct ls as [|a ls]; [inversion F2|]; pose proof (raise_ok (max_scale a ls) (args i) s) as K;
      destruct (raise mg st (max_scale a ls) s (args i)) as [[q l'] s2]; exact K.
    - intros H. destruct (args i) as [|u [|v [|]]]; try easy. destruct (sec u || sec v) eqn:S; [|easy].
      assert (X : forall w, In w [u; v] -> st w <> None) by (apply H; cbn; now rewrite orb_false_r).
      destruct (st u) as [a|] eqn:Eu; [|destruct (X u (or_introl eq_refl) Eu)].
      destruct (st v) as [b|] eqn:Ev; [|destruct (X v (or_intror (or_introl eq_refl)) Ev)].
      cbv zeta. destruct (a + b <? _); [|easy]. destruct (u =? v)%nat; [easy|]. now destruct (a <? b).
    - intros H. destruct (args i) as [|u [|]]; try easy. destruct (sec u) eqn:S; [|easy].
      destruct (st u) as [a|] eqn:Eu; [|destruct (H u (or_introl eq_refl) S Eu)]. now destruct (_ <? _).
  Qed.
  Lemma walk_ok l : forall s, (forall i, In i l -> readable i) -> c_ok (snd (walk step s l)) = c_ok s.
  Proof.
    induction l as [|i l IH]; intros s H; cbn [walk]; [easy|].
    pose proof (step_ok s i (H i (or_introl eq_refl))) as K. destruct (step s i) as [q s1].
    specialize (IH s1). destruct (walk step s1 l) as [r s2]. cbn in *. rewrite IH; [exact K|]. intros j J; apply H; now right.
  Qed.
End Walk.

(** * Merging into mgmt.init *)
Lemma merge_res b i : res (merge_init b i) = res i.
Proof. unfold merge_init. destruct (op i); try easy. destruct (args i) as [|v [|]]; try easy. now destruct (find _ b). Qed.
Lemma ssa_incl d l i : ssa d l -> In i l -> incl (args i) (d ++ map res l).
Proof.
  revert d. induction l as [|j l IH]; intros d S I; [easy|]. destruct S as (A & _ & S). destruct I as [<-|I].
  - now apply incl_appl.
  - intros v V. apply (IH _ S I) in V. cbn. apply in_app_iff in V as [[<-|V]|V]; rewrite in_app_iff; cbn; auto.
Qed.
Lemma merge_ssa b l1 l2 d : ssa d b -> b = l1 ++ l2 -> ssa (rev (map res l1) ++ d) (map (merge_init b) l2).
Proof.
  intros S. revert l1. induction l2 as [|i l2 IH]; intros l1 E; cbn [map ssa]; [easy|].
  assert (Si : ssa (rev (map res l1) ++ d) (i :: l2)) by (rewrite E in S; apply ssa_app in S; easy).
  destruct Si as (Ia & Ni & Si). rewrite merge_res. split; [|split; [exact Ni|]].
  - unfold merge_init. destruct (op i) eqn:Oi; try exact Ia. destruct (args i) as [|v [|]] eqn:A; try (rewrite A; exact Ia).
    destruct (find _ b) as [x|] eqn:F; [|rewrite A; exact Ia]. cbn [args]. apply find_some in F as (Fi & F).
    apply andb_prop in F as (F1 & F2). apply Nat.eqb_eq in F1.
    assert (Ix : In x l1).
    { rewrite E in Fi. apply in_app_iff in Fi as [Fi|Fi]; [easy|]. exfalso.
      assert (V : In v (rev (map res l1) ++ d)) by (apply Ia; now left).
      assert (S2 : ssa (rev (map res l1) ++ d) (i :: l2)) by (rewrite E in S; apply ssa_app in S; easy).
      apply (ssa_res_new _ _ v S2 V). rewrite <- F1. now apply in_map. }
    rewrite E in S. apply ssa_app in S as (S1 & _). intros u U. apply (ssa_incl _ _ _ S1 Ix) in U.
    rewrite in_app_iff, <- in_rev. apply in_app_iff in U. tauto.
  - specialize (IH (l1 ++ [i])). rewrite map_app, rev_app_distr in IH. cbn in IH. apply IH. rewrite <- app_assoc. exact E.
Qed.
Lemma merge_wf sa pa b o : wf (Prog sa pa b o) -> wf (Prog sa pa (map (merge_init b) b) o).
Proof.
  intros (S & O & D). cbn in *. split; [|split]; cbn; [|  |exact D].
  - apply (merge_ssa b [] b (sa ++ pa) S eq_refl).
  - rewrite map_map. rewrite (map_ext _ res) by (intros; apply merge_res). exact O.
Qed.
