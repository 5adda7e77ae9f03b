(** One step of unpacking. *)
From Coq Require Import ZArith List Bool Lia Sorting.
From Verif Require Import Rel_Model Rel_Proofs Points_Model Points_Spec Points_Proofs Points_Boxes Layout_Spec Layout_Proofs Layout_Props Assign_Model Assign_Spec Assign_Proofs Assign_Steps.
From Verif Require Codegen_Spec Codegen_Model Codegen_Props.
Import ListNotations.
Open Scope Z_scope.

Lemma before_irrefl p : ~ before p p.
Proof. induction p as [|a p IH]; cbn; [auto|]. intros [H|(_ & H)]; [lia|auto]. Qed.
Lemma before_trans p : forall q s, before p q -> before q s -> before p s.
Proof.
  induction p as [|a p IH]; intros [|b q] [|c s]; cbn; auto; try tauto. intros [H|(-> & H)] [K|(-> & K)]; [left; lia|left; lia|left; lia|right; split; [reflexivity|now apply (IH q s)]].
Qed.
Lemma before_total p : forall q, length p = length q -> p = q \/ before p q \/ before q p.
Proof.
  induction p as [|a p IH]; intros [|b q] H; try discriminate H; [now left|]. cbn in *. destruct (Z.lt_trichotomy a b) as [L|[->|L]]; [auto| |auto].
  destruct (IH q ltac:(lia)) as [->|[B|B]]; [now left|right; left; now right|right; right; now right].
Qed.
Lemma before_prefix d : forall g h, before (d ++ g) (d ++ h) <-> before g h.
Proof. induction d as [|a d IH]; intros g h; cbn; [tauto|]. rewrite IH. split; [intros [H|(_ & H)]; [lia|exact H]|auto]. Qed.
Lemma sorted_split {A} (P : A -> A -> Prop) (a b : list A) x : StronglySorted P (a ++ x :: b) -> forall y, In y b -> P x y.
Proof.
  induction a as [|z a IH]; cbn; intros H y Hy; inversion H as [|? ? H1 H2]; subst; [|now apply IH]. rewrite Forall_forall in H2. now apply H2.
Qed.
Lemma firsts_point (r : rel) p : length p = (nd r + nr r)%nat -> map (fun i => nth i p 0) (seq 0 (nd r)) ++ skipn (nd r) p = p.
Proof.
  intros L. assert (E : map (fun i => nth i p 0) (seq 0 (nd r)) = firstn (nd r) p).
  { apply nth_ext with (d := 0) (d' := 0); [rewrite map_length, seq_length, firstn_length; lia|]. intros i Hi. rewrite map_length, seq_length in Hi.
    rewrite (nth_indep _ 0 (nth 0 p 0)) by (rewrite map_length, seq_length; lia). rewrite (map_nth (fun i => nth i p 0)). rewrite seq_nth by lia. cbn. symmetry.
    rewrite <- (firstn_skipn (nd r) p) at 2. rewrite app_nth1 by (rewrite firstn_length; lia). reflexivity. }
  rewrite E. apply firstn_skipn.
Qed.
Lemma forall2_rev {A B} (P : A -> B -> Prop) l m : Forall2 P l m -> Forall2 P (rev l) (rev m).
Proof. induction 1; cbn; [constructor|]. apply Forall2_app; auto. Qed.

Section Step.
Context {T : Type} (zero : T).
Variables (ex : externals) (r : rel) (target : option (list Z)) (m : tensor T) (ct : list Z).
Let shape := match target with Some s => s | None => [] end.
Let R d g := relates r d g /\ (target = None \/ in_box shape d).
Let r' := bound_above r 0 shape.
Hypothesis W : well_formed r.
Hypothesis Nd : target <> None -> nd r = length shape.
Hypothesis Nr : nr r = length ct.
Hypothesis Ct : ct <> [].
Hypothesis M : shaped ct m.
Hypothesis Nn : target <> None -> forall d g, relates r d g -> Forall (fun x => 0 <= x) d.
Hypothesis Wi : forall d g, R d g -> in_box ct g.

Lemma u_points d g : relates r' d g <-> R d g.
Proof.
  unfold r', R. destruct target as [s|] eqn:E; cbn in shape; unfold shape in *.
  - rewrite restrict_above by (unfold local_at; rewrite Nd by discriminate; lia). split.
    + intros (Q & B). split; [exact Q|]. right. apply box_nth. assert (Ld : length d = length s) by (destruct Q as (Ld & _); rewrite Nd in Ld by discriminate; exact Ld). split; [lia|].
      intros i Hi. specialize (B i Hi). cbn [Nat.add] in B. rewrite app_nth1 in B by lia. specialize (Nn ltac:(discriminate) d g Q). rewrite Forall_forall in Nn. split; [|exact B]. apply Nn. apply nth_In. lia.
    + intros (Q & [B|B]); [discriminate B|]. split; [exact Q|]. apply box_nth in B as (Ld & B). intros i Hi. cbn [Nat.add]. rewrite app_nth1 by lia. now apply B.
  - cbn. tauto.
Qed.
Lemma u_formed : well_formed r'.
Proof. apply fits_formed, fits_above, formed_fits, W. Qed.
Lemma u_dims : nd r' = nd r /\ nr r' = nr r.
Proof. apply dims_above. Qed.
Lemma has_slot d g : R d g -> exists x, get m g = Some x.
Proof. intros H. now apply (get_shaped ct m g M), (Wi d). Qed.

Lemma single_ok : (target = None \/ size shape = 1) -> (exists d, relates r' d (sample ex r')) ->
  exists u, unpack_step zero ex r target m (length ct) = Some u /\ shaped shape u /\ exists d g, R d g /\ forall e, in_box shape e -> get u e = get m g.
Proof.
  intros S1 (d & Q). apply u_points in Q. destruct (has_slot d _ Q) as (x & X). unfold unpack_step. fold shape. fold r'.
  replace (match target with Some s => elements s =? 1 | None => true end) with true.
  2: { unfold shape in S1. destruct target as [s|]; [|reflexivity]. destruct S1 as [H|H]; [discriminate|]. rewrite size_elements, H. reflexivity. }
  assert (Ls : length (sample ex r') = nr r) by apply Q. destruct (sample ex r') as [|z l] eqn:E; [exfalso; apply Ct; destruct ct; [reflexivity|cbn in *; lia]|].
  rewrite X. exists (filled shape x). split; [reflexivity|]. split.
  - apply filled_shaped. unfold shape in *. destruct target as [s|]; [|constructor]. destruct Q as (_ & [H|H]); [discriminate|]. clear - H. induction H; constructor; auto. lia.
  - exists d, (z :: l). split; [exact Q|]. intros e B. rewrite X. now apply get_filled.
Qed.
Lemma many_ok t s : target = Some s -> size s <> 1 -> Forall (fun n => 0 <= n) s ->
  tree ex r' (seq 0 (nd r')) = Some t -> walks r' (seq 0 (nd r')) t -> Codegen_Spec.is_loop t -> Codegen_Spec.unblocked t ->
  exists u, unpack_step zero ex r target m (length ct) = Some u /\ shaped s u /\
    forall e, in_box s e -> (exists g, R e g /\ (forall h, R e h -> h = g \/ before g h) /\ get u e = get m g) \/ ((forall g, ~ R e g) /\ get u e = Some zero).
Proof.
  intros Et S1 Pos Tr (I & tr & Ru & Pt & So) Lp Ub. unfold unpack_step. fold shape. fold r'.
  assert (Es : shape = s) by (unfold shape; now rewrite Et).
  replace (match target with Some s => elements s =? 1 | None => true end) with false.
  2: { rewrite Et. symmetry. apply Z.eqb_neq. now rewrite size_elements. }
  destruct u_dims as (D1 & D2). rewrite Tr.
  destruct (Codegen_Props.C74_reversed (option (tensor T)) (unpack_body m (length shape) (length ct)) t [data0] 1) as (prog & outs & G & L & X).
  { intros zs xs. unfold unpack_body. destruct xs as [|a [|]]; reflexivity. }
  { exact I. } { exact Lp. } { exact Ub. } { discriminate. } { repeat constructor. }
  rewrite G. destruct outs as [|o [|]]; try discriminate L.
  set (f := fun zs (out : option (tensor T)) => match get m (skipn (length shape) zs) with
              Some x => match out with Some o => put o (firstn (length zs - length ct) zs) x | None => None end | None => None end).
  set (start := fun k => if Nat.eqb k 0 then Some (Codegen_Model.DT (Some (filled shape zero))) else None).
  destruct (X start [Some (filled shape zero)] tr) as (e & Exe & _ & C); [repeat constructor|exact Ru|].
  rewrite (fold_one f (unpack_body m (length shape) (length ct))) in C by reflexivity. assert (C1 : e (fst o) = Some (Codegen_Model.DT (fold_left (fun a zs => f zs a) (rev tr) (Some (filled shape zero))))) by (now inversion C).
  change (Codegen_Model.execs (option (tensor T)) (unpack_body m (length shape) (length ct)) prog (fun k => if Nat.eqb k 0 then Some (Codegen_Model.DT (Some (filled shape zero))) else None))
    with (Codegen_Model.execs (option (tensor T)) (unpack_body m (length shape) (length ct)) prog start).
  rewrite Exe, C1. clear C C1 Exe X G.
  assert (Split : forall d g, R d g -> skipn (length shape) (d ++ g) = g /\ firstn (length (d ++ g) - length ct) (d ++ g) = d /\ length (d ++ g) = (nd r' + nr r')%nat).
  { intros d g ((Ld & Lg & _) & _). rewrite app_length. rewrite Nd in Ld by congruence. rewrite skipn_app, skipn_all2 by lia. rewrite <- Ld, Nat.sub_diag. cbn [skipn app]. split; [reflexivity|].
    rewrite Lg, Nr. split; [|rewrite D1, D2, Nr, Nd by congruence; lia]. replace (length d + length ct - length ct)%nat with (length d) by lia. rewrite firstn_app, firstn_all, Nat.sub_diag. cbn. apply app_nil_r. }
  destruct (fold_puts (fun p => skipn (length shape) p) (fun p => firstn (length p - length ct) p) (get m) (rev tr)) as (ws & F2 & Fe).
  { intros p Hp. apply in_rev in Hp. apply Pt in Hp as (d & g & -> & H). apply u_points in H. destruct (Split d g H) as (-> & _). now apply (has_slot d g). }
  unfold f. rewrite Fe.
  assert (Ev : forall d x, In (d, x) ws -> exists g, R d g /\ get m g = Some x).
  { intros d x Hw. destruct (forall2_in_r _ _ _ F2 _ Hw) as (p & Hp & E1 & E2). cbn [fst snd] in *. apply in_rev in Hp. apply Pt in Hp as (d' & g & -> & H). apply u_points in H.
    destruct (Split d' g H) as (S2 & S3 & _). rewrite S2 in E2. rewrite S3 in E1. subst d'. eauto. }
  destruct (puts_ok s ws (filled shape zero)) as (u & Eu & Su & Gu).
  { rewrite Es. now apply filled_shaped. }
  { intros d x Hw. apply Ev in Hw as (g & (_ & [H|H]) & _); [congruence|]. now rewrite <- Es. }
  exists u. split; [exact Eu|]. split; [exact Su|]. intros d B. rewrite Gu. rewrite Es. rewrite get_filled by exact B.
  destruct (last_write d ws) as [x|] eqn:Lw.
  - left. rewrite <- (rev_involutive ws) in Lw. apply last_write_rev in Lw as (a & b & E1 & N).
    apply forall2_rev in F2. rewrite rev_involutive, E1 in F2. apply Forall2_app_inv_r in F2 as (ta & tb & Fa & Fb & Etr). destruct tb as [|p tc]; [inversion Fb|]. assert (E23 : d = firstn (length p - length ct) p /\ get m (skipn (length shape) p) = Some x) by (now inversion Fb). destruct E23 as (E2 & E3). rewrite Etr in *.
    assert (Hp : In p (ta ++ p :: tc)) by (apply in_or_app; right; now left). pose proof Hp as Hp'. apply Pt in Hp as (d' & g & -> & H). apply u_points in H. destruct (Split d' g H) as (S2 & S3 & S4).
    rewrite S2 in E3. rewrite S3 in E2. subst d'. exists g. split; [exact H|]. split; [|now rewrite E3].
    intros h Hh. assert (Ih : In (d ++ h) (ta ++ (d ++ g) :: tc)) by (apply Pt; exists d, h; split; [reflexivity|now apply u_points]).
    apply in_app_or in Ih as [Ih|[Ih|Ih]].
    + destruct (forall2_in_l _ _ _ Fa _ Ih) as ((d', y) & Hy & E4 & _). cbn in E4. destruct (Split d h Hh) as (_ & S5 & _). rewrite S5 in E4. subst d'. destruct (N y Hy).
    + left. now apply app_inv_head in Ih.
    + right. rewrite map_app in So. cbn [map] in So. apply (before_prefix d).
      assert (Q : forall q, In q (ta ++ (d ++ g) :: tc) -> map (fun i => nth i q 0) (seq 0 (nd r')) ++ skipn (nd r') q = q).
      { intros q Hq. apply Pt in Hq as (d1 & g1 & -> & H1). apply u_points in H1. apply firsts_point. now destruct (Split d1 g1 H1) as (_ & _ & ->). }
      rewrite <- (Q (d ++ g)) by exact Hp'. rewrite <- (Q (d ++ h)) by (apply in_or_app; right; now right). apply (sorted_split _ _ _ _ So). now apply (in_map (fun q => map (fun i => nth i q 0) (seq 0 (nd r')) ++ skipn (nd r') q)).
  - right. split; [|reflexivity]. intros g H. destruct (Split d g H) as (S2 & S3 & _). destruct (forall2_in_l _ _ _ F2 (d ++ g)) as ((d', x) & Hw & E1 & E2).
    { apply -> in_rev. apply Pt. exists d, g. split; [reflexivity|now apply u_points]. }
    cbn [fst snd] in *. rewrite S3 in E1. subst d'. now apply (proj1 (last_write_none d ws) Lw x).
Qed.
End Step.
