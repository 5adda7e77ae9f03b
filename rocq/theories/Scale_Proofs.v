From Coq Require Import ZArith Znumtheory List Bool Lia.
From Verif Require Import Words NumTheory_Model NumTheory_Proofs NumTheory_Props Mgmt_Model Mgmt_Spec Mgmt_Proofs Mgmt_Levels Scale_Model Scale_Spec.
Import ListNotations.
Open Scope Z_scope.

(** * Arithmetic modulo t *)
Section Eqm.
  Variable t : Z.
  Hypothesis Ht : 1 < t.
  Lemma eqm_refl a : eqm t a a. Proof. easy. Qed.
  Lemma eqm_sym a b : eqm t a b -> eqm t b a. Proof. easy. Qed.
  Lemma eqm_trans a b c : eqm t a b -> eqm t b c -> eqm t a c. Proof. unfold eqm. congruence. Qed.
  Lemma eqm_add a b c d : eqm t a b -> eqm t c d -> eqm t (a + c) (b + d).
  Proof. unfold eqm. intros H K. rewrite Zplus_mod, H, K, <- Zplus_mod. easy. Qed.
  Lemma eqm_sub a b c d : eqm t a b -> eqm t c d -> eqm t (a - c) (b - d).
  Proof. unfold eqm. intros H K. rewrite Zminus_mod, H, K, <- Zminus_mod. easy. Qed.
  Lemma eqm_mul a b c d : eqm t a b -> eqm t c d -> eqm t (a * c) (b * d).
  Proof. unfold eqm. intros H K. rewrite Zmult_mod, H, K, <- Zmult_mod. easy. Qed.
  Lemma eqm_mod a : eqm t (a mod t) a.
  Proof. unfold eqm. now rewrite Z.mod_mod by lia. Qed.
  Lemma eqm_cancel a b s : Z.gcd s t = 1 -> eqm t (a * s) (b * s) -> eqm t a b.
  Proof.
    intros G H. unfold eqm in *.
    assert (D : (t | a * s - b * s)).
    { apply Z.mod_divide; [lia|]. rewrite Zminus_mod, H, Z.sub_diag. apply Zmod_0_l. }
    assert (D' : (t | a - b)).
    { apply Gauss with (b := s); [|apply Zgcd_1_rel_prime; now rewrite Z.gcd_comm].
      replace (s * (a - b)) with (a * s - b * s) by ring. exact D. }
    destruct D' as (k & D'). replace a with (b + k * t) by lia. now rewrite Z.mod_add by lia.
  Qed.
End Eqm.

(** * Units *)
Definition unit_of (t s : Z) : Prop := 0 <= s < t /\ Z.gcd s t = 1.
Lemma gcd_mul t a b : Z.gcd a t = 1 -> Z.gcd b t = 1 -> Z.gcd (a * b) t = 1.
Proof.
  rewrite !Zgcd_1_rel_prime. intros A B. apply rel_prime_sym. apply rel_prime_mult; now apply rel_prime_sym.
Qed.
Lemma gcd_mod t a : 0 < t -> Z.gcd (a mod t) t = Z.gcd a t.
Proof. intros H. rewrite Z.gcd_mod by lia. apply Z.gcd_comm. Qed.
Section Ops.
  Variable P : bgv.
  Hypothesis Ht : 1 < pt P < 2 ^ 63.
  Hypothesis Hq : forall q, In q (qi P) -> 0 < q /\ Z.gcd q (pt P) = 1.
  Notation t := (pt P).

  Lemma mul_mod_ok a b s : 0 <= a -> 0 <= b -> mul_mod t a b = Some s -> s = (a * b) mod t.
  Proof.
    intros A B. unfold mul_mod. destruct (_ && _); [|easy]. intros [= <-]. apply Z.rem_mod_nonneg; nia.
  Qed.
  Lemma mul_mod_unit a b s : unit_of t a -> unit_of t b -> mul_mod t a b = Some s -> unit_of t s.
  Proof.
    intros (A & GA) (B & GB) E. apply mul_mod_ok in E; [|lia|lia]. subst s. split; [apply Z.mod_pos_bound; lia|].
    rewrite gcd_mod by lia. now apply gcd_mul.
  Qed.
  Lemma inverse_ok a : unit_of t a -> exists b, multiplicative_inverse 64 a t = Some b /\ unit_of t b /\ eqm t (a * b) 1.
  Proof.
    intros (A & GA). destruct (C10_multiplicative_inverse 64 t a) as (y & E & K & _); [lia|split; lia|lia|].
    destruct (K GA) as (Y & M). exists y. split; [exact E|]. split; [split; [exact Y|]|exact M].
    apply Zgcd_1_rel_prime, bezout_rel_prime.
    assert (D : (t | a * y - 1)).
    { apply Z.mod_divide; [lia|]. rewrite Zminus_mod, M, <- Zminus_mod. reflexivity. }
    destruct D as (k & D). apply Bezout_intro with (u := a) (v := - k). lia.
  Qed.
  Lemma q_unit q : In q (qi P) -> unit_of t (Z.rem q t).
  Proof.
    intros I. destruct (Hq q I) as (Q & G). rewrite Z.rem_mod_nonneg by lia. split; [apply Z.mod_pos_bound; lia|].
    now rewrite gcd_mod by lia.
  Qed.
  Lemma mul_scale_unit a b s : unit_of t a -> unit_of t b -> mul_scale P a b = Some s -> unit_of t s.
  Proof. apply mul_mod_unit. Qed.
  Lemma mul_scale_back_unit a b s : unit_of t a -> unit_of t b -> mul_scale_back P a b = Some s -> unit_of t s.
  Proof.
    unfold mul_scale_back. intros A B. destruct (inverse_ok b B) as (i & -> & U & _). now apply mul_mod_unit.
  Qed.
  Lemma reduce_scale_unit l a s : unit_of t a -> reduce_scale P l a = Some s -> unit_of t s.
  Proof.
    unfold reduce_scale. intros A. destruct (nth_error _ _) as [q|] eqn:E; [|easy]. apply nth_error_In in E.
    destruct (inverse_ok _ (q_unit q E)) as (i & -> & U & _). now apply mul_mod_unit.
  Qed.
  Lemma reduce_scale_back_unit l a s : unit_of t a -> reduce_scale_back P l a = Some s -> unit_of t s.
  Proof.
    unfold reduce_scale_back. intros A. destruct (nth_error _ _) as [q|] eqn:E; [|easy]. apply nth_error_In in E.
    apply mul_mod_unit; [exact A|now apply q_unit].
  Qed.

  Definition units (st : smap) : Prop := forall v s, st v = Some s -> unit_of t s.
  Lemma one_In v s u x : one v s = Some [(u, x)] -> u = v /\ s = Some x.
  Proof. destruct s; cbn; [|easy]. now intros [= -> ->]. Qed.
  Lemma one_some v s f u x : one v s = Some f -> In (u, x) f -> u = v /\ s = Some x.
  Proof. destruct s; cbn; [|easy]. intros [= <-] [[= -> ->]|[]]. easy. Qed.
  Lemma operand_scales_units ad st vs l : units st -> operand_scales ad st vs = Some l -> forall s, In s l -> unit_of t s.
  Proof.
    intros U. revert l. induction vs as [|v vs IH]; intros l; cbn.
    - now intros [= <-].
    - destruct (st v) as [x|] eqn:E.
      + destruct (operand_scales ad st vs) as [l'|]; [|easy]. intros [= <-] s [<-|H]; [eauto|]. now apply (IH l').
      + destruct (ad v); [apply IH|easy].
  Qed.
  Lemma one_unit : unit_of t 1.
  Proof. split; [lia|]. apply Z.gcd_1_l. Qed.
  Lemma forward_units dbg lev p st i f v s :
    units st -> forward dbg P lev p st i = Some f -> In (v, s) f -> unit_of t s.
  Proof.
    intros U. unfold forward.
    assert (K : forall k, match operand_scales (adaptable p) st (filter (managed p) (args i)) with
         | None | Some [] => Some []
         | Some (a :: l) =>
             match k with
             | Mul => one (res i) (mul_scale P a (hd a l))
             | ModReduce => one (res i) (reduce_scale P (lev (hd 0%nat (args i))) a)
             | Add | Sub | Ins => one (res i) (add_scale dbg (a :: l))
             | _ => if secret p (res i) then Some [(res i, a)] else Some []
             end
         end = Some f -> In (v, s) f -> unit_of t s).
    { intros k. destruct (operand_scales _ _ _) as [[|a l]|] eqn:E; try (intros [= <-]; easy).
      pose proof (operand_scales_units _ _ _ _ U E) as Ul.
      assert (Ua : unit_of t a) by (apply Ul; now left).
      assert (Uh : unit_of t (hd a l)) by (destruct l; [easy|]; apply Ul; right; now left).
      destruct k; try (destruct (secret p (res i)); intros [= <-]; [|easy]; intros [[= <- <-]|[]]; exact Ua).
      - intros H I. destruct (one_some _ _ _ _ _ H I) as (_ & Q). unfold add_scale in Q. destruct (_ && _); [easy|].
        injection Q as <-. exact Ua.
      - intros H I. destruct (one_some _ _ _ _ _ H I) as (_ & Q). unfold add_scale in Q. destruct (_ && _); [easy|].
        injection Q as <-. exact Ua.
      - intros H I. destruct (one_some _ _ _ _ _ H I) as (_ & Q). unfold add_scale in Q. destruct (_ && _); [easy|].
        injection Q as <-. exact Ua.
      - intros H I. destruct (one_some _ _ _ _ _ H I) as (_ & Q). eapply mul_scale_unit; [| |exact Q]; auto.
      - intros H I. destruct (one_some _ _ _ _ _ H I) as (_ & Q). eapply reduce_scale_unit; [|exact Q]; auto. }
    destruct (op i) eqn:Eo; try exact (K (op i)); try exact (K Add); try exact (K Sub); try exact (K Ins); try exact (K Mul);
      try exact (K Slice); try exact (K (Other 0)); try exact (K ModReduce); try exact (K (LevelReduce 0)); try exact (K LevelReduceMin);
      try exact (K Relin).
    - intros [= <-] [[= <- <-]|[]]. apply one_unit.
    - intros [= <-]. easy.
  Qed.
  Lemma split_units st vs u l : units st -> split_scales st vs = (u, l) -> forall s, In s l -> unit_of t s.
  Proof.
    intros U. revert u l. induction vs as [|v vs IH]; intros u l; cbn.
    - now intros [= <- <-].
    - destruct (split_scales st vs) as (u', l'). specialize (IH _ _ eq_refl).
      destruct (st v) as [x|] eqn:E; intros [= <- <-] s; cbn; [intros [<-|H]|]; eauto.
  Qed.
  Lemma backward_units lev p st i f v s : units st -> backward P lev p st i = Some f -> In (v, s) f -> unit_of t s.
  Proof.
    intros U. unfold backward. destruct (if secret p (res i) then st (res i) else None) as [r|] eqn:Er; [|now intros [= <-]].
    assert (Ur : unit_of t r) by (destruct (secret p (res i)); [eauto|easy]).
    destruct (split_scales _ _) as (w, l) eqn:El. pose proof (split_units _ _ _ _ U El) as Ul.
    destruct (op i);
      try (intros [= <-] I; apply in_map_iff in I as (u & [= <- <-] & _); exact Ur); try (now intros [= <-]).
    - destruct l as [|a [|]]; try (now intros [= <-]). destruct w; [now intros [= <-]|].
      destruct (mul_scale_back P r a) as [x|] eqn:E; [|easy]. intros [= <-] I.
      assert (unit_of t x) by (eapply mul_scale_back_unit; [| |exact E]; auto; apply Ul; now left).
      destruct I as [[= <- <-]|I]; [easy|]. apply in_map_iff in I as (u & [= <- <-] & _). easy.
    - destruct l; [|now intros [= <-]]. intros H I. destruct (one_some _ _ _ _ _ H I) as (_ & Q).
      eapply reduce_scale_back_unit; [|exact Q]; auto.
  Qed.
  Lemma step_units dbg lev p st st' : units st -> scale_step dbg P lev p st st' -> units st'.
  Proof.
    intros U [i f v s Hi Hf If Pr]. unfold propagate in Pr. destruct (st v) eqn:E.
    - destruct (_ && _); [easy|]. now injection Pr as <-.
    - injection Pr as <-. intros u x. unfold upd. destruct (Nat.eqb u v); [|apply U]. intros [= <-].
      destruct Hf as [Hf|Hf]; [eapply forward_units|eapply backward_units]; eauto.
  Qed.
  Lemma steps_units dbg lev p st st' : units st -> scale_steps dbg P lev p st st' -> units st'.
  Proof. intros U H. induction H; eauto using step_units. Qed.
  Lemma start_units p : units (scale_start p).
  Proof. intros v s. unfold scale_start. destruct (mem _ _); [|easy]. intros [= <-]. apply one_unit. Qed.
End Ops.

(** * Settled scales *)
Lemma propagate_fix st v s : propagate true st v s = Some st -> st v = Some s.
Proof.
  unfold propagate. destruct (st v) as [a|] eqn:E.
  - cbn. destruct (Z.eqb_spec a s); [now subst|easy].
  - intros [= H]. assert (K : upd st v (Some s) v = st v) by now rewrite H. rewrite upd_same in K. congruence.
Qed.
Lemma start_kept dbg P lev p st st' v s : scale_steps dbg P lev p st st' -> st v = Some s -> st' v = Some s.
Proof.
  induction 1 as [|st1 st2 st3 _ IH [i f u x _ _ _ Pr]]; intros E; [easy|]. specialize (IH E).
  unfold propagate in Pr. destruct (st2 u) eqn:E2.
  - destruct (_ && _); [easy|]. now injection Pr as <-.
  - injection Pr as <-. rewrite upd_other; [easy|]. intros ->. congruence.
Qed.
Lemma operand_scales_all ad st vs :
  (forall v, In v vs -> st v <> None) -> exists l, operand_scales ad st vs = Some l /\ Forall2 (fun v s => st v = Some s) vs l.
Proof.
  induction vs as [|v vs IH]; intros H; cbn; [eauto|].
  destruct (st v) as [s|] eqn:E; [|destruct (H v (or_introl eq_refl) E)].
  destruct IH as (l & -> & F); [intros; apply H; now right|]. cbn. eauto.
Qed.

(** * Dataflow over a straight-line body *)
Lemma flow_other {A} (tf : (nat -> A) -> inst -> A) st p v : ~ In v (map res p) -> flow tf st p v = st v.
Proof.
  revert st. induction p as [|i p IH]; intros st N; cbn in *; [easy|]. rewrite IH by tauto. apply upd_other. intuition.
Qed.
Lemma ssa_res_new d p v : ssa d p -> In v d -> ~ In v (map res p).
Proof.
  revert d. induction p as [|i p IH]; intros d S K; cbn; [easy|]. destruct S as (I & N & S). intros [E|H].
  - congruence.
  - exact (IH _ S (or_intror K) H).
Qed.
Lemma flow_res {A} (tf : (nat -> A) -> inst -> A) :
  (forall st st' i, (forall v, In v (args i) -> st v = st' v) -> tf st i = tf st' i) ->
  forall p d st i, ssa d p -> In i p -> flow tf st p (res i) = tf (flow tf st p) i.
Proof.
  intros L. induction p as [|j p IH]; intros d st i S H; [easy|]. destruct S as (I & N & S). destruct H as [<-|H]; cbn.
  - rewrite flow_other by (apply (ssa_res_new _ _ _ S); now left). rewrite upd_same. apply L. intros v Iv.
    rewrite flow_other by (apply (ssa_res_new _ _ _ S); right; now apply I).
    symmetry. apply upd_other. intros ->. now apply N, I.
  - now apply (IH _ _ _ S).
Qed.
Lemma secret_res p i : wf p -> In i (body p) -> secret p (res i) = existsb (secret p) (args i).
Proof.
  intros (S & _) I. unfold secret. rewrite (flow_res sec_tf) with (d := sargs p ++ pargs p); [easy| |easy|easy].
  intros st st' j H. unfold sec_tf. induction (args j) as [|v l IH]; cbn; [easy|].
  rewrite (H v) by now left. f_equal. apply IH. intros; apply H; now right.
Qed.
Lemma ssa_unique d p i j : ssa d p -> In i p -> In j p -> res i = res j -> i = j.
Proof.
  revert d. induction p as [|k p IH]; intros d S Hi Hj E; [easy|]. destruct S as (I & N & S). cbn in Hi, Hj.
  destruct Hi as [<-|Hi], Hj as [<-|Hj]; try easy.
  - destruct (ssa_res_new _ _ (res k) S); [now left|]. rewrite E. now apply in_map.
  - destruct (ssa_res_new _ _ (res k) S); [now left|]. rewrite <- E. now apply in_map.
  - eauto.
Qed.
Lemma inits_In p v : inits p v = true <-> exists i, In i (body p) /\ op i = Init /\ res i = v.
Proof.
  unfold inits. rewrite existsb_exists. split; intros (i & I & H); exists i.
  - destruct (op i); try easy. apply Nat.eqb_eq in H. easy.
  - destruct H as (-> & ->). split; [easy|apply Nat.eqb_refl].
Qed.
Lemma managed_cases p i : wf p -> In i (body p) -> managed p (res i) = true ->
  op i = Init \/ (op i <> Init /\ secret p (res i) = true /\ exists v, In v (args i) /\ managed p v = true).
Proof.
  intros W I M. assert (D : op i = Init \/ op i <> Init) by (destruct (op i); auto; right; easy).
  destruct D as [D|D]; [now left|right]. split; [easy|].
  assert (X : secret p (res i) = true).
  { unfold managed in M. destruct (secret p (res i)); [easy|]. cbn in M. apply inits_In in M as (j & Ij & Oj & R).
    destruct D. rewrite <- Oj. f_equal. apply (ssa_unique _ _ _ _ (proj1 W)); easy. }
  split; [easy|]. rewrite (secret_res p i W I) in X. apply existsb_exists in X as (v & Iv & Sv).
  exists v. unfold managed. now rewrite Sv.
Qed.
Lemma input_managed p v : wf p -> In v (sargs p ++ pargs p) -> managed p v = true -> In v (sargs p).
Proof.
  intros (S & _ & D) I M. pose proof (ssa_res_new _ _ _ S I) as N. unfold managed in M. apply orb_prop in M as [M|M].
  - unfold secret in M. rewrite flow_other in M by easy. unfold mem in M. apply existsb_exists in M as (u & Iu & E).
    apply Nat.eqb_eq in E. now subst.
  - apply inits_In in M as (i & Ii & _ & R). destruct N. rewrite <- R. now apply in_map.
Qed.
Lemma managed_value p v : managed p v = true -> In v (values p).
Proof.
  unfold managed, values. rewrite !in_app_iff. intros M. apply orb_prop in M as [M|M].
  - destruct (in_dec Nat.eq_dec v (map res (body p))) as [|N]; [tauto|]. unfold secret in M. rewrite flow_other in M by easy.
    unfold mem in M. apply existsb_exists in M as (u & Iu & E). apply Nat.eqb_eq in E. subst. tauto.
  - apply inits_In in M as (i & Ii & _ & <-). right. right. now apply in_map.
Qed.
Lemma walk_ind (mg : nat -> bool) (Q : nat -> Prop) d p :
  ssa d p -> (forall i, In i p -> (forall a, In a (args i) -> mg a = true -> Q a) -> mg (res i) = true -> Q (res i)) ->
  (forall v, In v d -> mg v = true -> Q v) -> forall v, In v (d ++ map res p) -> mg v = true -> Q v.
Proof.
  revert d. induction p as [|i p IH]; intros d S H B v; cbn.
  - rewrite app_nil_r. apply B.
  - destruct S as (I & N & S). intros K. apply (IH (res i :: d)); [easy|intros; apply H; [now right|easy|easy]| |].
    + intros u [<-|Hu]; [|now apply B]. apply H; [now left|]. intros a Ia. apply B. now apply I.
    + cbn. rewrite in_app_iff in *. cbn in K. tauto.
Qed.

(** * Payloads *)
Section Payloads.
  Variables (P : bgv) (lev : nat -> nat) (p : prog) (st : smap) (ev : opk -> list slots -> slots).
  Variables (C E : nat -> slots) (enc : nat -> Z) (delta : nat -> option Z).
  Notation t := (pt P).
  Hypothesis Ht : 1 < pt P < 2 ^ 63.
  Hypothesis Hq : forall q, In q (qi P) -> 0 < q /\ Z.gcd q (pt P) = 1.
  Hypothesis W : wf p.
  Hypothesis R : scale_bgv true P lev p st.
  Let drop (i : inst) : Z := nth (lev (hd 0%nat (args i))) (qi P) 0.
  Hypothesis Hops : forall i, In i (body p) -> secret p (res i) = true ->
    match op i with Add | Sub | Mul => forall v, In v (args i) -> managed p v = true | _ => True end.
  Hypothesis Hlin : forall i, In i (body p) -> secret p (res i) = true -> moves (op i) = true -> linear t ev (managed p) i.
  Hypothesis Hclear : forall i, In i (body p) -> clear_op t ev C i.
  Hypothesis Hexec : forall i, In i (body p) -> managed p (res i) = true -> exec_op t drop ev C E enc delta i.
  Hypothesis Henc : forall v s, st v = Some s -> enc v = s.
  Hypothesis Hdelta : forall i k a s s', In i (body p) -> op i = AdjustScale k -> args i = [a] -> st a = Some s ->
    st (res i) = Some s' -> materialize (delta_bgv P) s' s = Some (delta (res i)).
  Hypothesis Hin : forall v s, In v (sargs p) -> st v = Some s -> eqv t (E v) (scaled s (C v)).
  Hypothesis Hplain : forall v, managed p v = false -> E v = C v.

  Lemma st_units : units P st.
  Proof. destruct R as [S _ _]. exact (steps_units P Ht Hq _ _ _ _ _ (start_units P Ht p) S). Qed.
  Lemma arg_value i v : In i (body p) -> In v (args i) -> In v (values p).
  Proof.
    unfold values. destruct W as (S & _). revert S. rewrite app_assoc. generalize (sargs p ++ pargs p). generalize (body p).
    induction l as [|j l IH]; intros d S H Iv; [easy|]. destruct S as (I & N & S). destruct H as [<-|H]; cbn; rewrite in_app_iff.
    - left. now apply I.
    - specialize (IH _ S H Iv). cbn in IH. rewrite in_app_iff in IH. cbn. tauto.
  Qed.
  Lemma arg_scale i v : In i (body p) -> In v (args i) -> managed p v = true -> exists s, st v = Some s /\ unit_of t s.
  Proof.
    intros I Iv M. destruct R as [_ _ A]. specialize (A v (arg_value _ _ I Iv) M).
    destruct (st v) as [s|] eqn:Es; [|easy]. exists s. split; [easy|]. now apply st_units in Es.
  Qed.
  Lemma all_payloads : forall v, In v (values p) -> managed p v = true -> forall s, st v = Some s -> eqv t (E v) (scaled s (C v)).
  Proof.
    intros v Iv M. unfold values in Iv. rewrite app_assoc in Iv.
    apply (walk_ind (managed p) (fun v => forall s, st v = Some s -> eqv t (E v) (scaled s (C v))) _ _ (proj1 W)); [| |exact Iv|exact M].
    2:{ intros u Iu Mu s Es. apply Hin; [|easy]. now apply (input_managed p u W). }
    clear v Iv M. intros i I Q M s Es.
    specialize (Hexec i I M). pose proof (Hclear i I) as Hc.
    destruct R as [_ T An]. destruct (T i I) as (f & b & Hf & Hb & Fix).
    assert (FF : forall v s, In (v, s) f -> st v = Some s).
    { intros v x H. apply propagate_fix. apply Fix. apply in_or_app. now left. }
    assert (FB : forall v s, In (v, s) b -> st v = Some s).
    { intros v x H. apply propagate_fix. apply Fix. apply in_or_app. now right. }
    clear Fix T.
    pose proof (st_units (res i) s Es) as Us.
    destruct (managed_cases p i W I M) as [Oi|(Oi & Se & u & Iu & Mu)].
    { unfold exec_op, clear_op in *. rewrite Oi in *. destruct (args i) as [|a [|]]; try easy. rewrite Hc.
      now rewrite (Henc _ _ Es) in Hexec. }
    specialize (Hops i I Se).
    assert (As : forall v, In v (args i) -> managed p v = true -> exists x, st v = Some x /\ unit_of t x /\ eqv t (E v) (scaled x (C v))).
    { intros v Iv Mv. destruct (arg_scale i v I Iv Mv) as (x & Ex & Ux). exists x. split; [easy|]. split; [easy|]. now apply Q. }
    assert (Os : exists l, operand_scales (adaptable p) st (filter (managed p) (args i)) = Some l /\
                           Forall2 (fun v s => st v = Some s) (filter (managed p) (args i)) l).
    { apply operand_scales_all. intros v Iv. apply filter_In in Iv as (Iv & Mv). destruct (As v Iv Mv) as (x & -> & _). easy. }
    destruct Os as (l & Os & Fl).
    unfold backward in Hb. rewrite Se, Es in Hb. unfold forward in Hf.
    assert (Cs : forall v, In v (args i) -> managed p v = true -> st v = Some s -> moves (op i) = true \/ True) by auto. clear Cs.
    assert (Mv : moves (op i) = true -> eqv t (E (res i)) (scaled s (C (res i)))).
    { intros Mo. assert (Eb : b = map (fun v => (v, s)) (args i)).
      { destruct (split_scales _ _). destruct (op i); try easy; now injection Hb as <-. }
      assert (El : forall v, In v (args i) -> if managed p v then eqv t (E v) (scaled s (C v)) else E v = C v).
      { intros v Iv. destruct (managed p v) eqn:Mv; [|now apply Hplain]. apply Q; [easy|easy|]. apply FB. rewrite Eb.
        apply in_map_iff. eauto. }
      assert (X1 : E (res i) = ev (op i) (map E (args i))) by (unfold exec_op in Hexec; destruct (op i); easy).
      assert (X2 : C (res i) = ev (op i) (map C (args i))) by (unfold clear_op in Hc; destruct (op i); easy).
      rewrite X1, X2. now apply (Hlin i I Se Mo). }
    unfold exec_op in Hexec. unfold clear_op in Hc.
    destruct (op i) eqn:Eo; try (now apply Mv); clear Mv; try easy.
    - (* Add *)
      destruct (args i) as [|a [|a' [|]]] eqn:Ea; try easy.
      destruct (split_scales _ _). injection Hb as <-. clear Hf.
      assert (Ma : managed p a = true) by (apply Hops; now left). assert (Ma' : managed p a' = true) by (apply Hops; right; now left).
      assert (Qa : eqv t (E a) (scaled s (C a))) by (apply Q; [now left|easy|]; apply FB; now left).
      assert (Qb : eqv t (E a') (scaled s (C a'))) by (apply Q; [right; now left|easy|]; apply FB; right; now left).
      intros k. eapply eqm_trans; [apply Hexec|]. eapply eqm_trans; [apply eqm_add; [apply Qa|apply Qb]|].
      apply eqm_sym. unfold scaled. eapply eqm_trans; [apply eqm_mul; [apply eqm_refl|apply Hc]|].
      replace (s * (C a k + C a' k)) with (s * C a k + s * C a' k) by ring. apply eqm_refl.
    - (* Sub *)
      destruct (args i) as [|a [|a' [|]]] eqn:Ea; try easy.
      destruct (split_scales _ _). injection Hb as <-. clear Hf.
      assert (Ma : managed p a = true) by (apply Hops; now left). assert (Ma' : managed p a' = true) by (apply Hops; right; now left).
      assert (Qa : eqv t (E a) (scaled s (C a))) by (apply Q; [now left|easy|]; apply FB; now left).
      assert (Qb : eqv t (E a') (scaled s (C a'))) by (apply Q; [right; now left|easy|]; apply FB; right; now left).
      intros k. eapply eqm_trans; [apply Hexec|]. eapply eqm_trans; [apply eqm_sub; [apply Qa|apply Qb]|].
      apply eqm_sym. unfold scaled. eapply eqm_trans; [apply eqm_mul; [apply eqm_refl|apply Hc]|].
      replace (s * (C a k - C a' k)) with (s * C a k - s * C a' k) by ring. apply eqm_refl.
    - (* Mul *)
      destruct (args i) as [|a [|a' [|]]] eqn:Ea; try easy. clear Hb.
      assert (Ma : managed p a = true) by (apply Hops; now left). assert (Ma' : managed p a' = true) by (apply Hops; right; now left).
      destruct (As a) as (x & Ex & Ux & Qa); [now left|easy|]. destruct (As a') as (x' & Ex' & Ux' & Qb); [right; now left|easy|].
      cbn in Os, Hf. rewrite Ma, Ma' in Os, Hf. cbn in Os, Hf. rewrite Ex, Ex' in Hf. cbn in Hf.
      unfold mul_scale in Hf. destruct (mul_mod t x x') as [y|] eqn:Ey; [|easy]. injection Hf as <-.
      specialize (FF _ _ (or_introl eq_refl)). assert (y = s) by congruence. subst y.
      apply mul_mod_ok in Ey; [|easy|apply Ux|apply Ux']. 
      intros k. eapply eqm_trans; [apply Hexec|]. eapply eqm_trans; [apply eqm_mul; [apply Qa|apply Qb]|].
      apply eqm_sym. unfold scaled. eapply eqm_trans; [apply eqm_mul; [subst s; apply eqm_mod, Ht|apply Hc]|].
      replace (x * x' * (C a k * C a' k)) with (x * C a k * (x' * C a' k)) by ring. apply eqm_refl.
    - (* ModReduce *)
      destruct (args i) as [|a [|]] eqn:Ea; try easy. clear Hb. destruct Iu as [->|[]].
      destruct (As u) as (x & Ex & Ux & Qa); [now left|easy|].
      cbn in Os, Hf. rewrite Mu in Os, Hf. cbn in Os, Hf. rewrite Ex in Hf. cbn in Hf.
      unfold reduce_scale in Hf. destruct (nth_error (qi P) (lev u)) as [q|] eqn:Eq; [|easy].
      pose proof (nth_error_In _ _ Eq) as Iq. destruct (inverse_ok P Ht _ (q_unit P Ht Hq q Iq)) as (y & Ey & Uy & Yy).
      rewrite Ey in Hf. destruct (mul_mod t x y) as [z|] eqn:Ez; [|easy]. injection Hf as <-.
      specialize (FF _ _ (or_introl eq_refl)). assert (z = s) by congruence. subst z.
      apply mul_mod_ok in Ez; [|easy|apply Ux|apply Uy].
      intros k. apply (eqm_cancel t ltac:(lia) _ _ q); [apply Hq, Iq|].
      unfold drop in Hexec. rewrite Ea in Hexec. cbn [hd] in Hexec. rewrite (nth_error_nth _ _ 0 Eq) in Hexec.
      eapply eqm_trans; [apply Hexec|]. eapply eqm_trans; [apply Qa|]. apply eqm_sym. unfold scaled. rewrite Hc.
      assert (X : eqm t (q * y) 1).
      { eapply eqm_trans; [|exact Yy]. apply eqm_mul; [|apply eqm_refl]. rewrite Z.rem_mod_nonneg by (destruct (Hq q Iq); lia).
        apply eqm_sym, eqm_mod; lia. }
      eapply eqm_trans; [apply eqm_mul; [apply eqm_mul; [subst s; apply eqm_mod, Ht|apply eqm_refl]|apply eqm_refl]|].
      replace (x * y * C u k * q) with (x * C u k * (q * y)) by ring.
      eapply eqm_trans; [apply eqm_mul; [apply eqm_refl|exact X]|]. rewrite Z.mul_1_r. apply eqm_refl.
    - destruct (args i) as [|a [|]] eqn:Ea; try easy. destruct Iu as [->|[]]. rewrite Hexec, Hc. apply Q; [now left|easy|].
      destruct (split_scales _ _). injection Hb as <-. apply FB. now left.
    - destruct (args i) as [|a [|]] eqn:Ea; try easy. destruct Iu as [->|[]]. rewrite Hexec, Hc. apply Q; [now left|easy|].
      destruct (split_scales _ _). injection Hb as <-. apply FB. now left.
    - destruct (args i) as [|a [|]] eqn:Ea; try easy. destruct Iu as [->|[]]. rewrite Hexec, Hc. apply Q; [now left|easy|].
      destruct (split_scales _ _). injection Hb as <-. apply FB. now left.
    - (* AdjustScale *)
      destruct (args i) as [|a [|]] eqn:Ea; try easy. destruct Iu as [->|[]].
      destruct (As u) as (x & Ex & Ux & Qa); [now left|easy|].
      pose proof (Hdelta i _ u x s I Eo Ea Ex Es) as D. unfold materialize in D. destruct (Z.eqb_spec s x).
      + injection D as D. rewrite <- D in Hexec. subst x. now rewrite Hexec, Hc.
      + unfold delta_bgv in D. destruct (inverse_ok P Ht x Ux) as (y & Ey & Uy & Yy). rewrite Ey in D.
        destruct (mul_mod t s y) as [z|] eqn:Ez; [|easy]. destruct (z <? 0); [easy|]. injection D as D. rewrite <- D in Hexec.
        apply mul_mod_ok in Ez; [|easy|apply Us|apply Uy].
        intros k. eapply eqm_trans; [apply Hexec|]. rewrite Hc.
        eapply eqm_trans; [apply eqm_mul; [apply Qa|]|]. { rewrite Z.mul_1_r. subst z. apply eqm_mod, Ht. }
        unfold scaled. replace (x * C u k * (s * y)) with (s * C u k * (x * y)) by ring.
        eapply eqm_trans; [apply eqm_mul; [apply eqm_refl|exact Yy]|]. rewrite Z.mul_1_r. apply eqm_refl.
  Qed.
End Payloads.

Lemma adaptable_spec p v : adaptable p v = true -> adjustable (body p) v.
Proof.
  unfold adaptable. assert (K : forall l st, incl l (body p) -> (forall v, st v = true -> adjustable (body p) v) ->
    forall v, flow adapt_tf st l v = true -> adjustable (body p) v).
  { induction l as [|i l IH]; intros st I H u; cbn; [apply H|]. apply IH; [intros j J; apply I; now right|].
    intros w. unfold upd. destruct (Nat.eqb_spec w (res i)); [|apply H]. subst w. unfold adapt_tf.
    assert (Ii : In i (body p)) by (apply I; now left).
    destruct (op i) eqn:Eo; try easy.
    - destruct (args i) as [|a [|b r]] eqn:Ea; try easy. intros X. apply andb_prop in X as (X & Y). eapply adj_add; eauto.
    - destruct (args i) as [|a r] eqn:Ea; try easy. intros X. eapply adj_one; [exact Ii|rewrite Ea; reflexivity|auto|now rewrite Eo].
    - destruct (args i) as [|a r] eqn:Ea; try easy. intros X. eapply adj_one; [exact Ii|rewrite Ea; reflexivity|auto|now rewrite Eo].
    - destruct (args i) as [|a r] eqn:Ea; try easy. intros X. eapply adj_one; [exact Ii|rewrite Ea; reflexivity|auto|now rewrite Eo].
    - intros _. eapply adj_op; eauto. }
  apply K; [apply incl_refl|easy].
Qed.

(** * Every reachable state agrees with a consistent assignment *)
Section Complete.
  Variables (P : bgv) (lev : nat -> nat) (p : prog) (sc : nat -> Z).
  Notation t := (pt P).
  Hypothesis Ht : 1 < pt P < 2 ^ 63.
  Hypothesis Small : (t - 1) * (t - 1) < 2 ^ 63.
  Hypothesis Hq : forall q, In q (qi P) -> 0 < q /\ Z.gcd q (pt P) = 1.
  Hypothesis W : wf p.
  Hypothesis Co : consistent t (qi P) lev p sc.
  Definition below (st : smap) : Prop := forall v s, st v = Some s -> sc v = s.

  Lemma mul_mod_some a b : 0 <= a < t -> 0 <= b < t -> mul_mod t a b = Some ((a * b) mod t).
  Proof.
    intros A B. unfold mul_mod. assert (0 <= a * b <= (t - 1) * (t - 1)) by nia.
    destruct (Z.leb_spec (- 2 ^ 63) (a * b)); [|lia]. destruct (Z.ltb_spec (a * b) (2 ^ 63)); [|lia].
    destruct (Z.eqb_spec t 0); [lia|]. cbn. f_equal. apply Z.rem_mod_nonneg; lia.
  Qed.
  Lemma unit_eq a b : 0 <= a < t -> 0 <= b < t -> eqm t a b -> a = b.
  Proof. unfold eqm. intros A B. now rewrite !Z.mod_small by easy. Qed.

  Lemma operand_below st vs l : below st -> operand_scales (adaptable p) st vs = Some l -> forall s, In s l -> exists v, In v vs /\ sc v = s.
  Proof.
    intros B. revert l. induction vs as [|v vs IH]; intros l; cbn.
    - now intros [= <-].
    - destruct (st v) as [x|] eqn:E.
      + destruct (operand_scales _ st vs) as [l'|]; [|easy]. intros [= <-] s [<-|H].
        * exists v. split; [now left|]. now apply B.
        * destruct (IH l' eq_refl s H) as (u & Iu & Eu). exists u. split; [now right|easy].
      + destruct (adaptable p v); [|easy]. intros H s Is. destruct (IH l H s Is) as (u & Iu & Eu). exists u. split; [now right|easy].
  Qed.
  Lemma operand_exists st i a l :
    operand_scales (adaptable p) st (filter (managed p) (args i)) = Some (a :: l) -> existsb (managed p) (args i) = true.
  Proof.
    intros H. apply existsb_exists. destruct (filter (managed p) (args i)) as [|v vs] eqn:E; [easy|].
    assert (I : In v (filter (managed p) (args i))) by (rewrite E; now left). apply filter_In in I. eauto.
  Qed.
  Lemma add_below dbg a l r : (forall s, In s (a :: l) -> s = r) -> add_scale dbg (a :: l) = Some r.
  Proof.
    intros H. unfold add_scale. assert (forallb (Z.eqb a) l = true).
    { apply forallb_forall. intros x I. apply Z.eqb_eq. rewrite (H x), (H a); [easy|now left|now right]. }
    rewrite H0, andb_false_r. f_equal. apply H. now left.
  Qed.
  Lemma forward_below dbg st i : below st -> In i (body p) ->
    exists f, forward dbg P lev p st i = Some f /\ forall v s, In (v, s) f -> sc v = s.
  Proof.
    intros B I. unfold forward.
    assert (K : op i <> Init -> (forall k, op i <> AdjustScale k) ->
      exists f, match operand_scales (adaptable p) st (filter (managed p) (args i)) with
         | None | Some [] => Some []
         | Some (a :: l) =>
             match op i with
             | Mul => one (res i) (mul_scale P a (hd a l))
             | ModReduce => one (res i) (reduce_scale P (lev (hd 0%nat (args i))) a)
             | Add | Sub | Ins => one (res i) (add_scale dbg (a :: l))
             | _ => if secret p (res i) then Some [(res i, a)] else Some []
             end
         end = Some f /\ forall v s, In (v, s) f -> sc v = s).
    { intros N1 N2. destruct (operand_scales _ st _) as [[|a l]|] eqn:Os; try (exists []; now split).
      pose proof (con_op _ _ _ _ _ Co i I (operand_exists _ _ _ _ Os)) as Ci.
      pose proof (operand_below _ _ _ B Os) as Bo.
      assert (Eq : (forall v, In v (args i) -> sc v = sc (res i)) -> forall s, In s (a :: l) -> s = sc (res i)).
      { intros H s Is. destruct (Bo s Is) as (v & Iv & <-). apply H. now apply filter_In in Iv. }
      destruct (op i) eqn:Eo; try easy; try (now destruct (N2 id)).
      - rewrite (add_below dbg a l (sc (res i))) by (now apply Eq). eexists. split; [reflexivity|]. intros v s [[= <- <-]|[]]. easy.
      - rewrite (add_below dbg a l (sc (res i))) by (now apply Eq). eexists. split; [reflexivity|]. intros v s [[= <- <-]|[]]. easy.
      - rewrite (add_below dbg a l (sc (res i))) by (now apply Eq). eexists. split; [reflexivity|]. intros v s [[= <- <-]|[]]. easy.
      - destruct Ci as (u & v & Ea & Mu & Mv & Er & Bal). rewrite Ea in *. cbn in Os. rewrite Mu, Mv in Os. cbn in Os.
        destruct (con_unit _ _ _ _ _ Co u Mu) as (Uu & _). destruct (con_unit _ _ _ _ _ Co v Mv) as (Uv & _).
        assert (X : (a * hd a l) mod t = sc (res i) /\ 0 <= a < t /\ 0 <= hd a l < t).
        { destruct (st u) as [x|] eqn:Eu.
          - destruct (st v) as [y|] eqn:Ev.
            + injection Os as <- <-. cbn. rewrite <- (B u x Eu), <- (B v y Ev). easy.
            + destruct (adaptable p v) eqn:Ad; [|easy]. injection Os as <- <-. cbn. rewrite <- (B u x Eu).
              rewrite Er, <- (Bal (or_intror (adaptable_spec p v Ad))). easy.
          - destruct (adaptable p u) eqn:Ad; [|easy]. destruct (st v) as [y|] eqn:Ev.
            + injection Os as <- <-. cbn. rewrite <- (B v y Ev). rewrite Er, (Bal (or_introl (adaptable_spec p u Ad))). easy.
            + destruct (adaptable p v); easy. }
        destruct X as (X & A1 & A2). unfold mul_scale. rewrite mul_mod_some by easy. eexists. split; [reflexivity|].
        intros w s [[= <- <-]|[]]. easy.
      - destruct (secret p (res i)); eexists; (split; [reflexivity|]); [|easy]. intros v s [[= <- <-]|[]].
        symmetry. apply Eq; [easy|now left].
      - destruct (secret p (res i)); eexists; (split; [reflexivity|]); [|easy]. intros v s [[= <- <-]|[]].
        symmetry. apply Eq; [easy|now left].
      - destruct Ci as (u & m & Ea & Em & (Ur & _) & Er). pose proof (operand_exists _ _ _ _ Os) as Mu. rewrite Ea in *. cbn in Mu.
        rewrite orb_false_r in Mu. cbn in Os. rewrite Mu in Os. cbn in Os. destruct (st u) as [x|] eqn:Eu.
        2:{ destruct (adaptable p u); easy. }
        injection Os as <- <-. pose proof (B u x Eu) as Bu. destruct (con_unit _ _ _ _ _ Co u Mu) as (Uu & _).
        cbn [hd]. unfold reduce_scale. rewrite Em. pose proof (nth_error_In _ _ Em) as Im.
        destruct (inverse_ok P Ht _ (q_unit P Ht Hq m Im)) as (y & -> & (Uy & _) & Yy).
        rewrite mul_mod_some by (rewrite <- ?Bu; easy). eexists. split; [reflexivity|]. intros v s [[= <- <-]|[]].
        apply unit_eq; [easy|apply Z.mod_pos_bound; lia|]. apply (eqm_cancel t ltac:(lia) _ _ m); [apply Hq, Im|].
        eapply eqm_trans; [exact Er|]. apply eqm_sym.
        eapply eqm_trans; [apply eqm_mul; [apply eqm_mod; lia|apply eqm_refl]|]. rewrite <- Bu.
        replace (sc u * y * m) with (sc u * (m * y)) by ring. eapply eqm_trans; [apply eqm_mul; [apply eqm_refl|]|rewrite Z.mul_1_r; apply eqm_refl].
        eapply eqm_trans; [|exact Yy]. apply eqm_mul; [|apply eqm_refl]. rewrite Z.rem_mod_nonneg by (destruct (Hq m Im); lia).
        apply eqm_sym, eqm_mod; lia.
      - destruct (secret p (res i)); eexists; (split; [reflexivity|]); [|easy]. intros v s [[= <- <-]|[]].
        symmetry. apply Eq; [easy|now left].
      - destruct (secret p (res i)); eexists; (split; [reflexivity|]); [|easy]. intros v s [[= <- <-]|[]].
        symmetry. apply Eq; [easy|now left].
      - destruct (secret p (res i)); eexists; (split; [reflexivity|]); [|easy]. intros v s [[= <- <-]|[]].
        symmetry. apply Eq; [easy|now left]. }
    pose proof (con_init _ _ _ _ _ Co i I) as Ci.
    destruct (op i) eqn:Eo; try (apply K; easy).
    - eexists. split; [reflexivity|]. intros v s [[= <- <-]|[]]. now apply Ci.
    - eexists. split; [reflexivity|]. easy.
  Qed.
  Lemma split_in st vs u l : split_scales st vs = (u, l) ->
    (forall v, In v u -> In v vs /\ st v = None) /\ (forall s, In s l -> exists v, In v vs /\ st v = Some s).
  Proof.
    revert u l. induction vs as [|v vs IH]; intros u l; cbn.
    - now intros [= <- <-].
    - destruct (split_scales st vs) as (u', l'). destruct (IH _ _ eq_refl) as (A & B).
      destruct (st v) as [x|] eqn:E; intros [= <- <-]; split.
      + intros w Iw. destruct (A w Iw). auto.
      + intros s [<-|Is]; [exists v; auto|]. destruct (B s Is) as (w & Iw & Ew). exists w. auto.
      + intros w [<-|Iw]; [auto|]. destruct (A w Iw). auto.
      + intros s Is. destruct (B s Is) as (w & Iw & Ew). exists w. auto.
  Qed.
  Lemma backward_below st i : below st -> In i (body p) ->
    exists b, backward P lev p st i = Some b /\ forall v s, In (v, s) b -> sc v = s.
  Proof.
    intros B I. unfold backward. destruct (if secret p (res i) then st (res i) else None) as [r|] eqn:Er; [|exists []; now split].
    assert (Se : secret p (res i) = true /\ st (res i) = Some r) by (destruct (secret p (res i)); easy).
    destruct Se as (Se & Sr). pose proof (B _ _ Sr) as Br.
    assert (Mr : managed p (res i) = true) by (unfold managed; now rewrite Se).
    assert (Ex : existsb (managed p) (args i) = true).
    { rewrite (secret_res p i W I) in Se. apply existsb_exists in Se as (v & Iv & Sv). apply existsb_exists. exists v.
      split; [easy|]. unfold managed. now rewrite Sv. }
    pose proof (con_op _ _ _ _ _ Co i I Ex) as Ci. destruct (con_unit _ _ _ _ _ Co _ Mr) as (Ur & _).
    assert (K : (forall v, In v (args i) -> sc v = sc (res i)) -> forall v s, In (v, s) (map (fun v => (v, r)) (args i)) -> sc v = s).
    { intros H v s J. apply in_map_iff in J as (u & [= <- <-] & Iu). rewrite <- Br. now apply H. }
    destruct (split_scales _ _) as (w, l) eqn:Sp. pose proof (split_in _ _ _ _ Sp) as (Iw & Il).
    destruct (op i) eqn:Eo; try (eexists; split; [reflexivity|]; now apply K); try (exists []; now split).
    - destruct l as [|a [|]]; try (exists []; now split). destruct w as [|v0 w0]; [exists []; now split|].
      destruct Ci as (u & v & Ea & Mu & Mv & Es & _). rewrite Ea in Iw, Il. cbn in Iw, Il. rewrite Mu, Mv in Iw, Il.
      destruct (con_unit _ _ _ _ _ Co u Mu) as (Uu & Gu). destruct (con_unit _ _ _ _ _ Co v Mv) as (Uv & Gv).
      assert (X : exists c, unit_of t a /\ 0 <= c < t /\ sc (res i) = (a * c) mod t /\ forall x, In x (v0 :: w0) -> sc x = c).
      { destruct (Il a (or_introl eq_refl)) as (x & [<-|[<-|[]]] & Sx); pose proof (B _ _ Sx) as Bx.
        - exists (sc v). rewrite <- Bx. split; [now split|]. split; [easy|]. split; [easy|]. intros x Ix. destruct (Iw x Ix) as ([<-|[<-|[]]] & N); congruence.
        - exists (sc u). rewrite <- Bx. split; [now split|]. split; [easy|]. split; [rewrite Z.mul_comm; easy|]. intros x Ix. destruct (Iw x Ix) as ([<-|[<-|[]]] & N); congruence. }
      destruct X as (c & Ua & Uc & Ec & Xs). unfold mul_scale_back. destruct (inverse_ok P Ht a Ua) as (y & -> & (Uy & _) & Yy).
      rewrite mul_mod_some by (rewrite <- ?Br; easy). eexists. split; [reflexivity|]. intros x s J.
      change ((v0, _) :: _) with (map (fun v => (v, (r * y) mod t)) (v0 :: w0)) in J.
      apply in_map_iff in J as (x' & [= <- <-] & Ix). rewrite (Xs _ Ix). apply unit_eq; [easy|apply Z.mod_pos_bound; lia|].
      apply eqm_sym. eapply eqm_trans; [apply eqm_mod; lia|]. rewrite <- Br, Ec.
      eapply eqm_trans; [apply eqm_mul; [apply eqm_mod; lia|apply eqm_refl]|].
      replace (a * c * y) with (c * (a * y)) by ring. eapply eqm_trans; [apply eqm_mul; [apply eqm_refl|exact Yy]|].
      rewrite Z.mul_1_r. apply eqm_refl.
    - destruct l; [|exists []; now split]. destruct Ci as (u & m & Ea & Em & _ & Es). rewrite Ea in *. cbn in Ex. rewrite orb_false_r in Ex.
      cbn [hd]. unfold reduce_scale_back. rewrite Em. pose proof (nth_error_In _ _ Em) as Im.
      destruct (q_unit P Ht Hq m Im) as (Um & _). rewrite mul_mod_some by (rewrite <- ?Br; easy).
      eexists. split; [reflexivity|]. intros x s [[= <- <-]|[]]. destruct (con_unit _ _ _ _ _ Co u Ex) as (Uu & _).
      apply unit_eq; [easy|apply Z.mod_pos_bound; lia|]. eapply eqm_trans; [apply eqm_sym, Es|]. apply eqm_sym.
      eapply eqm_trans; [apply eqm_mod; lia|]. rewrite <- Br. apply eqm_mul; [apply eqm_refl|].
      rewrite Z.rem_mod_nonneg by (destruct (Hq m Im); lia). apply eqm_mod; lia.
  Qed.
  Lemma propagate_below dbg st v s : below st -> sc v = s -> exists st', propagate dbg st v s = Some st' /\ below st'.
  Proof.
    intros B E. unfold propagate. destruct (st v) as [a|] eqn:Ev.
    - rewrite <- E, (B _ _ Ev), Z.eqb_refl, andb_false_r. eauto.
    - eexists. split; [reflexivity|]. intros u x. unfold upd. destruct (Nat.eqb_spec u v); [|apply B]. subst. congruence.
  Qed.
  Lemma start_below : below (scale_start p).
  Proof.
    intros v s. unfold scale_start. destruct (mem v (sargs p)) eqn:E; [|easy]. intros [= <-]. apply (con_input _ _ _ _ _ Co).
    unfold mem in E. apply existsb_exists in E as (u & Iu & E). apply Nat.eqb_eq in E. now subst.
  Qed.
  Lemma step_below dbg st st' : below st -> scale_step dbg P lev p st st' -> below st'.
  Proof.
    intros B [i f v s I Hf If Pr]. assert (E : sc v = s).
    { destruct Hf as [Hf|Hf].
      - destruct (forward_below dbg st i B I) as (f' & E & H). rewrite Hf in E. injection E as <-. now apply H.
      - destruct (backward_below st i B I) as (f' & E & H). rewrite Hf in E. injection E as <-. now apply H. }
    destruct (propagate_below dbg st v s B E) as (st2 & E2 & B2). rewrite Pr in E2. injection E2 as <-. easy.
  Qed.
  Lemma steps_below dbg st st' : below st -> scale_steps dbg P lev p st st' -> below st'.
  Proof. intros B H. induction H; eauto using step_below. Qed.
  Lemma forward_dbg st i f : forward true P lev p st i = Some f -> forward false P lev p st i = Some f.
  Proof.
    unfold forward.
    destruct (operand_scales (adaptable p) st (filter (managed p) (args i))) as [[|a l]|]; [destruct (op i); congruence| |destruct (op i); congruence].
    destruct (op i); try congruence; unfold one, add_scale; cbn [andb]; destruct (negb _); cbn; congruence.
  Qed.
  Lemma propagate_dbg st v s st' : below st -> sc v = s -> propagate false st v s = Some st' -> propagate true st v s = Some st'.
  Proof.
    intros B E. unfold propagate. destruct (st v) as [a|] eqn:Ev; [|easy]. rewrite <- E, (B _ _ Ev), Z.eqb_refl. easy.
  Qed.
  Lemma forward_back st i f : below st -> In i (body p) -> forward false P lev p st i = Some f -> forward true P lev p st i = Some f.
  Proof.
    intros B I H. destruct (forward_below true st i B I) as (f' & E & _). pose proof (forward_dbg _ _ _ E). congruence.
  Qed.
  Lemma forward_sc dbg st i f v s : below st -> In i (body p) -> forward dbg P lev p st i = Some f -> In (v, s) f -> sc v = s.
  Proof. intros B I H. destruct (forward_below dbg st i B I) as (f' & E & K). rewrite H in E. injection E as <-. apply K. Qed.
  Lemma backward_sc st i f v s : below st -> In i (body p) -> backward P lev p st i = Some f -> In (v, s) f -> sc v = s.
  Proof. intros B I H. destruct (backward_below st i B I) as (f' & E & K). rewrite H in E. injection E as <-. apply K. Qed.
  Lemma release_steps st st' : below st -> scale_steps false P lev p st st' -> scale_steps true P lev p st st'.
  Proof.
    intros B H. induction H as [|st1 st2 st3 H1 IH H2]; [constructor|]. specialize (IH B).
    pose proof (steps_below _ _ _ B H1) as B2. econstructor; [exact IH|]. destruct H2 as [i f v s I Hf If Pr].
    apply Scale_step with (i := i) (f := f) (v := v) (s := s); try easy.
    - destruct Hf as [Hf|Hf]; [left|now right]. now apply forward_back.
    - apply propagate_dbg; try easy. destruct Hf as [Hf|Hf]; [eapply forward_sc|eapply backward_sc]; eauto.
  Qed.
  Lemma release_result st : scale_bgv false P lev p st -> scale_bgv true P lev p st.
  Proof.
    intros [S T A]. pose proof (steps_below _ _ _ start_below S) as B. constructor; [apply release_steps; [apply start_below|easy]| |easy].
    intros i I. destruct (T i I) as (f & b & Hf & Hb & X). exists f, b. split; [now apply forward_back|]. split; [easy|].
    intros v s J. apply propagate_dbg; [easy| |now apply X]. apply in_app_iff in J as [J|J]; [eapply forward_sc|eapply backward_sc]; eauto.
  Qed.
  Lemma result_exact dbg st v : scale_bgv dbg P lev p st -> In v (values p) -> managed p v = true -> st v = Some (sc v).
  Proof.
    intros [S T A] I M. specialize (A v I M). destruct (st v) as [s|] eqn:E; [|easy].
    now rewrite (steps_below _ _ _ start_below S v s E).
  Qed.
  Lemma never_fails dbg st : scale_steps dbg P lev p (scale_start p) st -> forall i, In i (body p) ->
    exists f b, forward dbg P lev p st i = Some f /\ backward P lev p st i = Some b /\
      forall v s, In (v, s) (f ++ b) -> propagate dbg st v s <> None.
  Proof.
    intros S i I. pose proof (steps_below _ _ _ start_below S) as B. destruct (forward_below dbg st i B I) as (f & Hf & Kf).
    destruct (backward_below st i B I) as (b & Hb & Kb). exists f, b. split; [easy|]. split; [easy|]. intros v s J.
    assert (E : sc v = s) by (apply in_app_iff in J as [J|J]; auto).
    destruct (propagate_below dbg st v s B E) as (x & -> & _). easy.
  Qed.
End Complete.

(** * Running the solver on an example *)
(** forward, or one of the propagations of a backward visit *)
Definition visit (dbg : bool) (P : bgv) (lev : nat -> nat) (p : prog) (st : smap) (x : bool * inst * nat) : option smap :=
  let '(fw, i, k) := x in
  f <- (if fw then forward dbg P lev p st i else backward P lev p st i) ;;
  match nth_error f k with None => Some st | Some (v, s) => propagate dbg st v s end.
Fixpoint visits (dbg : bool) (P : bgv) (lev : nat -> nat) (p : prog) (st : smap) (l : list (bool * inst * nat)) : option smap :=
  match l with [] => Some st | x :: l => st' <- visit dbg P lev p st x ;; visits dbg P lev p st' l end.
Definition plan (p : prog) : list (bool * inst * nat) :=
  map (fun i => (true, i, 0%nat)) (body p) ++ flat_map (fun i => [(false, i, 0%nat); (false, i, 1%nat)]) (rev (body p)).
Fixpoint times {A} (n : nat) (l : list A) : list A := match n with O => [] | S n => l ++ times n l end.
Definition same (a : option Z) (s : Z) : bool := match a with Some x => x =? s | None => false end.
Definition settled_check (dbg : bool) (P : bgv) (lev : nat -> nat) (p : prog) (st : smap) : bool :=
  forallb (fun i => match forward dbg P lev p st i, backward P lev p st i with
                    | Some f, Some b => forallb (fun '(v, s) => if dbg then same (st v) s else match st v with Some _ => true | None => false end) (f ++ b)
                    | _, _ => false
                    end) (body p) &&
  forallb (fun v => negb (managed p v) || match st v with Some _ => true | None => false end) (values p).
Lemma visits_steps dbg P lev p l st0 st st' :
  (forall x, In x l -> In (snd (fst x)) (body p)) -> scale_steps dbg P lev p st0 st -> visits dbg P lev p st l = Some st' ->
  scale_steps dbg P lev p st0 st'.
Proof.
  revert st. induction l as [|((fw, i), k) l IH]; intros st H S; cbn [visits].
  - now intros [= <-].
  - destruct (visit dbg P lev p st (fw, i, k)) as [st1|] eqn:E; [|easy]. apply IH; [intros; apply H; now right|].
    unfold visit in E. destruct (if fw then _ else _) as [f|] eqn:Ef; [|easy]. destruct (nth_error f k) as [(v, s)|] eqn:En.
    + econstructor; [exact S|]. apply Scale_step with (i := i) (f := f) (v := v) (s := s).
      * apply (H (fw, i, k)). now left.
      * destruct fw; auto.
      * exact (nth_error_In _ _ En).
      * exact E.
    + now injection E as <-.
Qed.
Lemma scale_run dbg P lev p n st :
  visits dbg P lev p (scale_start p) (times n (plan p)) = Some st -> settled_check dbg P lev p st = true -> scale_bgv dbg P lev p st.
Proof.
  intros V C. apply andb_prop in C as (C1 & C2). rewrite forallb_forall in C1, C2. constructor.
  - apply (visits_steps _ _ _ _ (times n (plan p)) _ (scale_start p)); [|constructor|exact V].
    assert (K : forall x, In x (plan p) -> In (snd (fst x)) (body p)).
    { intros x I. unfold plan in I. apply in_app_iff in I as [I|I].
      - apply in_map_iff in I as (i & <- & Ii). easy.
      - apply in_flat_map in I as (i & Ii & I). apply in_rev in Ii. destruct I as [<-|[<-|[]]]; easy. }
    induction n as [|n IH]; cbn; [easy|]. intros x I. apply in_app_iff in I as [I|I]; [now apply K|].
    clear - K I. revert I. induction n as [|n IH]; cbn; [easy|]. intros I. apply in_app_iff in I as [I|I]; auto.
  - intros i I. specialize (C1 i I). cbn beta in C1.
    destruct (forward dbg P lev p st i) as [f|]; [|easy]. destruct (backward P lev p st i) as [b|]; [|easy].
    exists f, b. split; [easy|]. split; [easy|]. rewrite forallb_forall in C1. intros v s J. specialize (C1 _ J). cbn beta iota in C1.
    unfold propagate, same in *. destruct (st v) as [a|]; [|destruct dbg; easy]. destruct dbg; [|easy]. now rewrite C1.
  - intros v I M. specialize (C2 v I). cbn beta in C2. rewrite M in C2. cbn in C2. destruct (st v); easy.
Qed.
