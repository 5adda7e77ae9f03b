(** One step of packing. *)
From Coq Require Import ZArith List Bool Lia Sorting.
From Verif Require Import Rel_Model Rel_Proofs Points_Model Points_Spec Points_Proofs Points_Boxes Layout_Spec Layout_Proofs Layout_Props Assign_Model Assign_Spec Assign_Proofs.
From Verif Require Codegen_Spec Codegen_Model Codegen_Props.
Import ListNotations.
Open Scope Z_scope.

Lemma formed_fits r : well_formed r -> fits r.
Proof. intros W. split; apply Forall_forall; intros e E; apply W; auto. Qed.
Lemma restrict_relates r shape d g : nd r = length shape -> (relates (bound_all r 0 shape) d g <-> relates r d g /\ in_box shape d).
Proof.
  intros N. rewrite relates_bound_all by (unfold local_at; lia). rewrite box_nth. split.
  - intros (R & B). split; [exact R|]. destruct R as (D & _). split; [lia|]. intros i I. specialize (B i I). now rewrite app_nth1 in B by (cbn; lia).
  - intros (R & D & B). split; [exact R|]. intros i I. cbn [Nat.add]. rewrite app_nth1 by lia. now apply B.
Qed.
Lemma restrict_above r shape : forall p d g, (p + length shape <= local_at r)%nat ->
  (relates (bound_above r p shape) d g <-> relates r d g /\ forall i, (i < length shape)%nat -> nth (p + i) (d ++ g) 0 < nth i shape 0).
Proof.
  revert r. induction shape as [|s shape IH]; intros r p d g H; cbn [bound_above length].
  - split; [intros R; split; [easy|]; intros i Hi; lia|tauto].
  - cbn [length] in H. rewrite IH; [|change (local_at (upper_bound r p (s - 1))) with (local_at r); lia]. rewrite relates_upper by lia. split.
    + intros ((R & B) & K). split; [easy|]. intros [|i] Hi; cbn [nth]; [rewrite Nat.add_0_r; lia|]. rewrite <- Nat.add_succ_comm. apply K. lia.
    + intros (R & K). split; [split; [easy|]|].
      * specialize (K 0%nat ltac:(lia)). rewrite Nat.add_0_r in K. cbn [nth] in K. lia.
      * intros i Hi. specialize (K (S i) ltac:(lia)). now rewrite <- Nat.add_succ_comm in K.
Qed.
Lemma fits_above shape : forall r p, fits r -> fits (bound_above r p shape).
Proof. induction shape as [|s shape IH]; intros r p F; cbn; auto. apply IH. apply fits_ineq; [exact F|apply row_length]. Qed.
Lemma dims_above shape : forall r p, nd (bound_above r p shape) = nd r /\ nr (bound_above r p shape) = nr r.
Proof. induction shape as [|s shape IH]; intros r p; cbn; auto. destruct (IH (upper_bound r p (s - 1)) (S p)) as (-> & ->). auto. Qed.

(** the box is found for a relation that has a point *)
Lemma eqs_found r : well_formed r -> (exists d g, relates r d g) -> forall l b, incl l (eqs r) -> exists c, scan_eqs r l b = Some c /\ length (fst c) = length (fst b) /\ length (snd c) = length (snd b).
Proof.
  intros W (d & g & D & G & x & X & (F & _)). induction l as [|e l IH]; intros b I; cbn [scan_eqs]; [exists b; auto|].
  assert (I' : incl l (eqs r)) by (intros y Y; apply I; now right). destruct (single r e) as [(v, a)|] eqn:E; [|now apply IH].
  assert (Ie : In e (eqs r)) by (apply I; now left). destruct (single_value r e v a d g x) as (V & N & Q); auto. rewrite Forall_forall in F. rewrite (F e Ie) in Q.
  replace (- constant r e) with (nth v d 0 * a) by lia. rewrite Z.rem_mul by easy. cbn [negb Z.eqb]. destruct (IH (set (fst b) v (Z.max (nth v (fst b) 0) (Z.quot (nth v d 0 * a) a)), set (snd b) v (Z.min (nth v (snd b) 0) (Z.quot (nth v d 0 * a) a))) I') as (c & C & L1 & L2).
  exists c. rewrite C. cbn [fst snd] in *. rewrite !set_length in *. auto.
Qed.
Lemma resolve_found bound s l : forall i, (forall j, (i <= j < i + length l)%nat -> bound j <> None) -> exists k, resolve bound s i l = Some k.
Proof.
  induction l as [|b l IH]; intros i H; cbn; [eauto|]. destruct (IH (S i)) as (k & ->). { intros j J. apply H. cbn. lia. }
  destruct (b =? s); [|eauto]. specialize (H i ltac:(cbn; lia)). destruct (bound i); [eauto|easy].
Qed.
Lemma box_exists r lower upper : well_formed r -> (exists d g, relates r d g) -> (forall i, (i < nd r)%nat -> lower i <> None /\ upper i <> None) ->
  exists b, domain_box r lower upper = Some b.
Proof.
  intros W P H. unfold domain_box. set (b0 := fold_left _ _ _).
  assert (Lb : length (fst b0) = nd r /\ length (snd b0) = nd r).
  { unfold b0. assert (Gi : forall es b, length (fst (fold_left (scan_ineq r) es b)) = length (fst b) /\ length (snd (fold_left (scan_ineq r) es b)) = length (snd b)).
    { clear. induction es as [|e es IH]; intros (l, u); cbn [fold_left]; [easy|]. destruct (IH (scan_ineq r (l, u) e)) as (-> & ->). cbn [scan_ineq]. destruct (single r e) as [(v, a)|]; [|easy]. destruct (0 <? a); cbn [fst snd]; now rewrite ?set_length. }
    destruct (Gi (ineqs r) (repeat min64 (nd r), repeat max64 (nd r))) as (-> & ->). cbn [fst snd]. now rewrite !repeat_length. }
  destruct (eqs_found r W P (eqs r) b0 (incl_refl _)) as ((l, u) & -> & L1 & L2). cbn [fst snd] in *.
  destruct (resolve_found lower min64 l 0) as (k & ->); [intros j J; apply H; lia|]. destruct (resolve_found upper max64 u 0) as (k' & ->); [intros j J; apply H; lia|]. eauto.
Qed.
Lemma enumerate_found r ex : well_formed r -> answers ex r -> exists pts, enumerate r (lower ex r) (upper ex r) (image ex r) (wrapped ex r) = Some pts.
Proof.
  intros W (B & Fo & _ & _ & _ & _ & (d & P)). destruct (box_exists r (lower ex r) (upper ex r) W) as ((lb, ub) & E); eauto. unfold enumerate. rewrite E.
  destruct (box_loop lb ub); [|eauto]. destruct (box_ok _ _ _ _ _ W B E) as (L1 & L2 & _).
  destruct (for_each_run (image ex r) lb ub (fun d s g => s ++ [(d, firstn (nr r) g)]) (fun _ => false) (@nil (list Z * list Z))) as [Z0|(Z0 & _)]; [lia| |]; rewrite Z0; eauto.
Qed.

Lemma puts_packed {T} (zero : T) (R : list Z -> list Z -> Prop) (element : list Z -> option T) target (ws : list (list Z * T)) out :
  Forall (fun s => 0 <= s) target -> (forall d g, R d g -> in_box target g /\ exists x, element d = Some x) ->
  (forall d e g, R d g -> R e g -> element d = element e) ->
  (forall g x, In (g, x) ws <-> exists d, R d g /\ element d = Some x) -> out = filled target zero ->
  exists m, puts ws (Some out) = Some m /\ packed zero R element target m.
Proof.
  intros F B Fn W ->. destruct (puts_ok target ws (filled target zero)) as (m & E & S & G).
  - now apply filled_shaped.
  - intros g x I. apply W in I as (d & Rd & _). now apply (B d g).
  - exists m. split; [exact E|]. split; [exact S|]. split.
    + intros d g Rd. rewrite G. destruct (last_write g ws) as [x|] eqn:L.
      * apply last_write_some, W in L as (e & Re & X). rewrite <- X. now apply (Fn e d g).
      * exfalso. destruct (B d g Rd) as (_ & x & X). apply (proj1 (last_write_none g ws) L x). apply W. now exists d.
    + intros g Bg N. rewrite G. destruct (last_write g ws) as [x|] eqn:L; [exfalso; apply last_write_some, W in L as (e & Re & _); now apply (N e)|]. now apply get_filled.
Qed.

(** a fold of a body over points of a relation *)
Lemma fold_one {A} (f : list Z -> A -> A) (F : list Z -> list A -> list A) tr : (forall zs a, F zs [a] = [f zs a]) -> forall a, fold_left (fun xs zs => F zs xs) tr [a] = [fold_left (fun a zs => f zs a) tr a].
Proof. intros H. induction tr as [|zs tr IH]; intros a; cbn; [reflexivity|]. now rewrite H, IH. Qed.
Lemma puts_none {T} (ws : list (list Z * T)) : puts ws None = None.
Proof. induction ws; auto. Qed.
Lemma fold_puts {T} (dom rng : list Z -> list Z) (val : list Z -> option T) tr : (forall p, In p tr -> exists x, val (dom p) = Some x) ->
  exists ws, Forall2 (fun p w => fst w = rng p /\ val (dom p) = Some (snd w)) tr ws /\
    forall out, fold_left (fun out p => match val (dom p) with Some x => match out with Some o => put o (rng p) x | None => None end | None => None end) tr out = puts ws out.
Proof.
  induction tr as [|p tr IH]; intros H.
  - exists []. split; [constructor|reflexivity].
  - destruct (H p ltac:(now left)) as (x & X). destruct IH as (ws & F & E); [intros q Hq; apply H; now right|].
    exists ((rng p, x) :: ws). split; [constructor; auto|]. intros out. cbn [fold_left]. rewrite X, E. reflexivity.
Qed.
Lemma forall2_in_l {A B} (P : A -> B -> Prop) l m : Forall2 P l m -> forall a, In a l -> exists b, In b m /\ P a b.
Proof. induction 1 as [|a b l m H F IH]; intros c []; [subst; exists b; split; [now left|easy]|]. destruct (IH c) as (d & D & Q); auto. exists d. split; [now right|easy]. Qed.
Lemma forall2_in_r {A B} (P : A -> B -> Prop) l m : Forall2 P l m -> forall b, In b m -> exists a, In a l /\ P a b.
Proof. induction 1 as [|a b l m H F IH]; intros c []; [subst; exists a; split; [now left|easy]|]. destruct (IH c) as (d & D & Q); auto. exists d. split; [now right|easy]. Qed.

Lemma zeros_in s : Forall (fun n => 0 < n) s -> in_box s (repeat 0 (length s)).
Proof. induction 1 as [|n s H F IH]; cbn; constructor; [lia|exact IH]. Qed.

Section Step.
Context {T : Type} (zero : T) (is_zero : T -> bool) (width : option Z) (encode : T -> list Z) (decode : list Z -> T).
Hypothesis zero_ok : forall x, is_zero x = true -> x = zero.
Hypothesis coded : encoding zero width encode decode.
Variables (ex : externals) (v : value T) (r : rel) (target : list Z) (given : list nat) (st : strategy) (junk : tensor T).
Let R d g := relates r d g /\ (scalar v = true \/ in_box (shape v) d).
Let r' := if scalar v then r else bound_all r 0 (shape v).
Hypothesis W : well_formed r.
Hypothesis P : proper v.
Hypothesis Nd : scalar v = false -> nd r = length (shape v).
Hypothesis Nr : nr r = length target.
Hypothesis Pos : Forall (fun s => 0 < s) (shape v).
Hypothesis Fn : forall d e g, R d g -> R e g -> element v d = element v e.
Hypothesis Wi : forall d g, R d g -> in_box target g.
Hypothesis Am : answers ex r'.

Lemma points d g : relates r' d g <-> R d g.
Proof.
  unfold r', R. destruct (scalar v) eqn:E; [tauto|]. rewrite restrict_relates by auto. intuition discriminate.
Qed.
Lemma formed : well_formed r'.
Proof. unfold r'. destruct (scalar v); [exact W|]. apply fits_formed, fits_bound_all, formed_fits, W. Qed.
Lemma same_dims : nd r' = nd r /\ nr r' = nr r.
Proof. unfold r'. destruct (scalar v); [auto|]. destruct (dims_bound_all (shape v) r 0) as (-> & -> & _). auto. Qed.
Lemma some_point : exists d g, R d g.
Proof. destruct Am as (_ & _ & _ & _ & _ & _ & (d & H)). exists d, (sample ex r'). now apply points. Qed.
Lemma target_pos : Forall (fun s => 0 <= s) target.
Proof. destruct some_point as (d & g & H). apply Wi in H. clear - H. induction H; constructor; auto. lia. Qed.
Lemma has_element d g : R d g -> exists x, element v d = Some x.
Proof.
  intros (_ & H). unfold element. destruct P as (S & Sc & _). destruct (scalar v) eqn:E.
  - rewrite (Sc eq_refl) in S. apply (get_shaped [] (content v) [] S). constructor.
  - destruct H as [H|H]; [discriminate|]. now apply (get_shaped (shape v) (content v) d S).
Qed.
Lemma first_leaf : exists x l, leaves (content v) = x :: l.
Proof.
  destruct P as (S & _). pose proof (leaves_length _ _ S) as L. pose proof (size_pos _ Pos). destruct (leaves (content v)) as [|x l]; [cbn in L; lia|eauto].
Qed.
Lemma zero_in : in_box (shape v) (repeat 0 (length (shape v))).
Proof. apply zeros_in, Pos. Qed.
Lemma flat_zeros s : flat s (repeat 0 (length s)) = 0.
Proof. induction s; cbn; auto. Qed.
Lemma all_same x l : (known v = Constant true \/ scalar v = true \/ size (shape v) = 1) -> leaves (content v) = x :: l -> forall d g, R d g -> element v d = Some x.
Proof.
  intros K E d g H. destruct (has_element d g H) as (y & Y). destruct P as (S & Sc & Sp & _). unfold element in *.
  assert (X : get (content v) (repeat 0 (length (shape v))) = Some x).
  { rewrite <- (get_leaves (shape v)) by (auto using zero_in). rewrite flat_zeros, E. reflexivity. }
  destruct (scalar v) eqn:Es.
  - rewrite (Sc eq_refl) in X. exact X.
  - destruct H as (_ & [H|H]); [congruence|]. destruct K as [K|[K|K]]; [|congruence|].
    + rewrite <- X. apply Sp; auto using zero_in.
    + rewrite <- X. f_equal. apply (flat_inj (shape v)); auto using zero_in. pose proof (flat_bound _ _ H). rewrite flat_zeros. lia.
Qed.
Lemma packed_const x : (forall d g, R d g -> element v d = Some x) -> (x = zero \/ forall g, in_box target g -> exists d, R d g) ->
  packed zero R (element v) target (filled target x).
Proof.
  intros H C. split; [apply filled_shaped, target_pos|]. split.
  - intros d g Rd. rewrite get_filled by (now apply (Wi d g)). symmetry. now apply (H d g).
  - intros g B N. rewrite get_filled by easy. destruct C as [->|C]; [reflexivity|]. destruct (C g B) as (d & Rd). destruct (N d Rd).
Qed.

Lemma nest_ok sched t : tree ex r' sched = Some t -> walks r' sched t -> Codegen_Spec.is_loop t ->
  exists prog o outs m, Codegen_Model.generate false t [data0] 1 = Some (prog, o :: outs) /\ denote zero junk v target (Nest r' prog o) = Some m /\ packed zero R (element v) target m.
Proof.
  intros E (I & tr & Ru & Pt & _) Lp.
  destruct (Codegen_Props.C74_loop_nest (option (tensor T)) (assign_body v r') t [data0] 1) as (prog & outs & G & L & X).
  { intros zs xs. unfold assign_body. destruct xs as [|a [|]]; reflexivity. }
  { exact I. } { exact Lp. } { discriminate. } { repeat constructor. }
  destruct outs as [|o [|]]; try discriminate L. exists prog, o, [].
  set (f := fun zs (out : option (tensor T)) => match (if scalar v then get (content v) [] else get (content v) (firstn (length (shape v)) zs)) with
              Some x => match out with Some o => put o (firstn (nr r') (skipn (nd r') zs)) x | None => None end | None => None end).
  set (start := fun k => if Nat.eqb k 0 then Some (Codegen_Model.DT (Some (filled target zero))) else None).
  destruct (X start [Some (filled target zero)] tr) as (e & Ex & _ & C); [repeat constructor|exact Ru|].
  rewrite (fold_one f (assign_body v r')) in C by reflexivity. inversion C as [|? ? ? ? C1 _]; subst.
  destruct same_dims as (D1 & D2).
  destruct (fold_puts (fun p => if scalar v then [] else firstn (length (shape v)) p) (fun p => firstn (nr r') (skipn (nd r') p)) (fun d => get (content v) d) tr) as (ws & F2 & Fe).
  { intros p Hp. apply Pt in Hp as (d & g & -> & H). apply points in H. destruct (has_element d g H) as (x & Hx). unfold element in Hx. destruct (scalar v) eqn:Es; [eauto|].
    rewrite firstn_app. destruct H as ((Ld & _) & _). rewrite Nd in Ld by auto. rewrite firstn_all2 by lia. rewrite <- Ld, Nat.sub_diag. cbn. rewrite app_nil_r. eauto. }
  assert (Split : forall d g, R d g -> firstn (nr r') (skipn (nd r') (d ++ g)) = g /\ (if scalar v then [] else firstn (length (shape v)) (d ++ g)) = if scalar v then [] else d).
  { intros d g ((Ld & Lg & _) & _). rewrite D1, D2. rewrite skipn_app, skipn_all2 by lia. rewrite <- Ld, Nat.sub_diag. cbn [skipn app]. split; [apply firstn_all2; lia|].
    destruct (scalar v) eqn:Es; [reflexivity|]. rewrite firstn_app, firstn_all2 by (rewrite <- Nd by auto; lia). rewrite <- Nd by auto. rewrite Ld, Nat.sub_diag. cbn. apply app_nil_r. }
  destruct (puts_packed zero R (element v) target ws (filled target zero)) as (m & Pm & Pk); auto using target_pos.
  { intros d g H. split; [now apply (Wi d g)|now apply (has_element d g)]. }
  { intros g x. split.
    - intros Hw. destruct (forall2_in_r _ _ _ F2 _ Hw) as (p & Hp & E1 & E2). cbn [fst snd] in *. apply Pt in Hp as (d & g' & -> & H). apply points in H. destruct (Split d g' H) as (S1 & S2).
      rewrite S1 in E1. subst g'. exists d. split; [exact H|]. rewrite S2 in E2. unfold element. destruct (scalar v); exact E2.
    - intros (d & H & Ed). destruct (Split d g H) as (S1 & S2). destruct (forall2_in_l _ _ _ F2 (d ++ g)) as ((g', x') & Hw & E1 & E2).
      { apply Pt. exists d, g. split; [reflexivity|]. now apply points. }
      cbn [fst snd] in *. rewrite S1 in E1. rewrite S2 in E2. subst g'. unfold element in Ed. destruct (scalar v); congruence. }
  exists m. split; [exact G|]. split; [|exact Pk]. cbn [denote].
  change (Codegen_Model.execs (option (tensor T)) (assign_body v r') prog (fun k => if Nat.eqb k 0 then Some (Codegen_Model.DT (Some (filled target zero))) else None)) with (Codegen_Model.execs (option (tensor T)) (assign_body v r') prog start).
  rewrite Ex, C1. rewrite <- Pm, <- Fe. unfold f. clear. destruct (scalar v); reflexivity.
Qed.

(** folding *)
Lemma fold_ok splat resource : scalar v = false -> (splat = true -> known v = Constant true) ->
  exists m res, try_folding zero width encode decode ex r' v target splat resource = Some (Folded m res) /\ packed zero R (element v) target m.
Proof.
  intros Es Sp. destruct (enumerate_found r' ex formed Am) as (pts & E). pose proof Am as (B & _ & Im & Wr & _).
  destruct (enumerate_ok r' _ _ _ _ pts formed B Im Wr E) as (_ & Pt). unfold try_folding. rewrite E.
  destruct first_leaf as (x0 & l0 & Lv). destruct P as (S & Sc & K & _).
  destruct (fold_boxed_puts zero target splat (shape v) (content v) pts (repeat zero (Z.to_nat (elements target)))) as (l' & ws & Fb & Ll & Pu & Wr').
  { apply target_pos. }
  { rewrite repeat_length, size_elements. pose proof (size_nonneg _ target_pos). lia. }
  { exact S. }
  { intros d g I. apply Pt, points in I. split; [|now apply (Wi d g)]. destruct I as (_ & [I|I]); [congruence|exact I]. }
  { intros Hs d D. rewrite Lv. cbn. symmetry. rewrite <- (K (Sp Hs) (repeat 0 (length (shape v))) d zero_in D). rewrite <- (get_leaves (shape v)) by (auto using zero_in). now rewrite flat_zeros, Lv. }
  destruct (puts_packed zero R (element v) target ws (filled target zero)) as (m & Pm & Pk); auto using target_pos.
  { intros d g H. split; [now apply (Wi d g)|now apply (has_element d g)]. }
  { intros g x. rewrite Wr'. unfold element. rewrite Es. split; intros (d & I & G); exists d; (split; [|exact G]).
    - now apply points, Pt. - now apply Pt, points. }
  rewrite size_elements, of_list_filled in Pu by apply target_pos. rewrite Pm in Pu. injection Pu as ->. rewrite size_elements in Fb |- *.
  destruct width as [w|] eqn:Ew.
  - destruct (coded w eq_refl) as (Wp & Z0 & En).
    pose proof (fold_bytes_boxed w encode decode Wp En (size target) splat (strides (shape v)) (strides target) (leaves (content v)) pts (repeat zero (Z.to_nat (size target))) l') as Q.
    assert (Rw : raw_data encode splat (content v) = flat_map encode (if splat then firstn 1 (leaves (content v)) else leaves (content v))).
    { unfold raw_data. destruct splat; [|reflexivity]. rewrite Lv. cbn. now rewrite app_nil_r. }
    assert (Zr : repeat 0 (Z.to_nat (size target * w)) = flat_map encode (repeat zero (Z.to_nat (size target)))).
    { replace (Z.to_nat (size target * w)) with (Z.to_nat (size target) * Z.to_nat w)%nat by (rewrite Z2Nat.inj_mul by (pose proof (size_nonneg _ target_pos); lia); reflexivity).
      clear - Z0. induction (Z.to_nat (size target)) as [|k IH]; [reflexivity|]. cbn [repeat flat_map Nat.mul]. rewrite Z0, <- IH. now rewrite repeat_app. }
    rewrite Rw, Zr, Q by (auto; rewrite repeat_length; pose proof (size_nonneg _ target_pos); lia).
    replace (Z.to_nat (size target)) with (length l') by lia. rewrite raw_chunks by auto. eauto.
  - rewrite Fb. eauto.
Qed.

(** the remainders *)
Hypothesis Small : size (shape v) <= 2 ^ 24 /\ 0 < last target 0 <= 2 ^ 24.
Hypothesis Tight : exists d g, R d g /\ hd 0 g = hd 0 target - 1.
Lemma crt_fold cts slots : target = [cts; slots] -> 0 < slots -> scalar v = false ->
  (forall d ct slot, R d [ct; slot] <-> 0 <= ct < cts /\ 0 <= slot < slots /\ d = map (Z.modulo (ct * slots + slot)) (shape v)) ->
  exists m, denote zero junk v target (Crt (shape v) (if (length target =? 2)%nat then dim target 0 else 1) (last target 0)) = Some m /\ packed zero R (element v) target m.
Proof.
  intros Et Hs Es H. rewrite Et. cbn [length Nat.eqb dim nth last denote].
  assert (Ind : forall k, 0 <= k -> (if cts =? 1 then [0; k] else [Z.quot k slots; Z.rem k slots]) = [k / slots; k mod slots] \/ cts = 1).
  { intros k Hk. destruct (Z.eqb_spec cts 1); [auto|]. left. rewrite Z.quot_div_nonneg, Z.rem_mod_nonneg by lia. reflexivity. }
  assert (Rm : forall k, 0 <= k -> map (Z.rem k) (shape v) = map (Z.modulo k) (shape v)).
  { intros k Hk. apply map_ext_in. intros a Ha. pose proof (proj1 (Forall_forall _ _) Pos a Ha) as Pa. cbn in Pa. apply Z.rem_mod_nonneg; lia. }
  assert (Nz : existsb (Z.eqb 0) (shape v) || (slots =? 0) = false).
  { apply orb_false_iff. split; [|apply Z.eqb_neq; lia]. apply not_true_is_false. intros Q. apply existsb_exists in Q as (a & Ia & Qa). apply Z.eqb_eq in Qa. pose proof (proj1 (Forall_forall _ _) Pos a Ia) as Pa. cbn in Pa. lia. }
  assert (Pt : forall k, 0 <= k < cts * slots -> R (map (Z.modulo k) (shape v)) [k / slots; k mod slots]).
  { intros k Hk. apply H. pose proof (Z.mod_pos_bound k slots Hs). pose proof (Z.div_pos k slots ltac:(lia) Hs). assert (k / slots < cts) by (apply Z.div_lt_upper_bound; lia).
    splits; try lia. f_equal. f_equal. rewrite (Z.div_mod k slots) at 1 by lia. lia. }
  destruct (fold_puts (fun p => map (Z.modulo (nth 0 p 0)) (shape v)) (fun p => [nth 0 p 0 / slots; nth 0 p 0 mod slots]) (get (content v)) (map (fun k => [k]) (counter (cts * slots)))) as (ws & F2 & Fe).
  { intros p Hp. apply in_map_iff in Hp as (k & <- & Hk). cbn [nth]. unfold counter in Hk. apply in_map_iff in Hk as (i & <- & Hi). apply in_seq in Hi.
    destruct (has_element _ _ (Pt (Z.of_nat i) ltac:(lia))) as (x & X). unfold element in X. rewrite Es in X. eauto. }
  assert (Hr : forall k, In [k] (map (fun k => [k]) (counter (cts * slots))) <-> 0 <= k < cts * slots).
  { intros k. rewrite in_map_iff. unfold counter. split.
    - intros (j & [= <-] & I). apply in_map_iff in I as (i & <- & Hi). apply in_seq in Hi. lia.
    - intros Hk. exists k. split; [reflexivity|]. apply in_map_iff. exists (Z.to_nat k). split; [lia|]. apply in_seq. lia. }
  destruct (puts_packed zero R (element v) target ws (filled target zero)) as (m & Pm & Pk); auto using target_pos.
  { intros d g Q. split; [now apply (Wi d g)|now apply (has_element d g)]. }
  { intros g x. unfold element. rewrite Es. split.
    - intros Hw. destruct (forall2_in_r _ _ _ F2 _ Hw) as (p & Hp & E1 & E2). cbn [fst snd] in *. pose proof Hp as Hp'. apply in_map_iff in Hp' as (k & <- & _). apply Hr in Hp. cbn [nth] in *. subst g. eauto.
    - intros (d & Rd & X). assert (Lg : exists ct slot, g = [ct; slot]).
      { destruct Rd as ((_ & Lg & _) & _). rewrite Nr, Et in Lg. destruct g as [|a [|b [|]]]; try discriminate Lg. eauto. }
      destruct Lg as (ct & slot & ->). apply H in Rd as (C & Sl & ->). destruct (forall2_in_l _ _ _ F2 [ct * slots + slot]) as ((g', x') & Hw & E1 & E2); [apply Hr; nia|].
      cbn [fst snd nth] in *. rewrite Z.div_add_l, (Z.div_small slot slots) in E1 by lia. assert (Hm : (ct * slots + slot) mod slots = slot) by (rewrite Z.add_comm, Z.mod_add, Z.mod_small by lia; reflexivity). rewrite Hm, Z.add_0_r in E1. subst g'.
      rewrite X in E2. injection E2 as ->. exact Hw. }
  exists m. rewrite Et in Pm. split; [|rewrite <- Et; exact Pk]. rewrite <- Pm, <- Fe. unfold crt_body. rewrite Nz.
  assert (G : forall l out, (forall k, In k l -> 0 <= k < cts * slots) ->
    fold_left (fun out k => match out with Some out => match get (content v) (map (Z.rem k) (shape v)) with Some x => put out (if (2 =? 2)%nat then (if cts =? 1 then [0; k] else [Z.quot k slots; Z.rem k slots]) else [k]) x | None => None end | None => None end) l out =
    fold_left (fun out p => match get (content v) (map (Z.modulo (nth 0 p 0)) (shape v)) with Some x => match out with Some o => put o [nth 0 p 0 / slots; nth 0 p 0 mod slots] x | None => None end | None => None end) (map (fun k => [k]) l) out).
  { induction l as [|k l IH]; intros out Hl; [reflexivity|]. cbn [fold_left map nth]. assert (Hk : 0 <= k < cts * slots) by (apply Hl; now left). rewrite Rm by lia.
    assert (Ix : (if (2 =? 2)%nat then (if cts =? 1 then [0; k] else [Z.quot k slots; Z.rem k slots]) else [k]) = [k / slots; k mod slots]).
    { cbn [Nat.eqb]. destruct (Z.eqb_spec cts 1) as [->|N]; [rewrite Z.div_small, Z.mod_small by lia; reflexivity|]. rewrite Z.quot_div_nonneg, Z.rem_mod_nonneg by lia. reflexivity. }
    rewrite Ix. rewrite IH by (intros j Hj; apply Hl; now right). f_equal. destruct out; destruct (get (content v) (map (Z.modulo k) (shape v))); reflexivity. }
  apply G. intros k Hk. apply Hr. apply (in_map (fun k => [k])). exact Hk.
Qed.
Lemma two_dims b : (forall d g, relates r' d g <-> relates b d g) -> nr b = 2%nat -> exists cts slots, target = [cts; slots].
Proof.
  intros Eq N. destruct some_point as (d & g & H). pose proof H as ((_ & Lg & _) & _). apply points, Eq in H. destruct H as (_ & Lg' & _).
  rewrite Nr in Lg. rewrite Lg, N in Lg'. destruct target as [|a [|c [|]]]; try discriminate Lg'. eauto.
Qed.
(** the number of ciphertexts is the one of the layout *)
Lemma crt_cts cts slots n b : target = [cts; slots] -> 0 < slots -> (forall d g, relates r' d g <-> relates b d g) ->
  (forall d ct slot, relates b d [ct; slot] -> 0 <= ct < n) -> 0 < n -> (exists d slot, relates b d [n - 1; slot]) -> cts = n.
Proof.
  intros Et Hs Eq Up Hn (d & slot & L). pose proof Wi as Wi'. rewrite Et in Wi'. destruct Tight as (d' & g' & H & E). rewrite Et in E. cbn [hd] in E.
  pose proof H as H'. apply points, Eq in H. apply Wi' in H'. destruct (box2_inv _ _ _ H') as (c & s' & Eg). rewrite Eg in *. apply box2 in H'. cbn [hd] in E.
  apply Up in H. apply Eq, points, Wi' in L. apply box2 in L. lia.
Qed.
Lemma bicyclic_ok : scalar v = false -> is_bicyclic ex (shape v) (last target 0) r' = Some true ->
  exists m, denote zero junk v target (Crt (shape v) (if (length target =? 2)%nat then dim target 0 else 1) (last target 0)) = Some m /\ packed zero R (element v) target m.
Proof.
  intros Es E. unfold is_bicyclic in E. assert (Ev : exists a b, shape v = [a; b]) by (clear - E; destruct (shape v) as [|a [|b [|]]]; try discriminate E; eauto).
  destruct Ev as (a & b & Ev). rewrite Ev in E. cbn [length Nat.eqb negb dim nth] in E.
  destruct (_ || _) in E; [discriminate|]. destruct (negb _) in E; [discriminate|]. destruct (bicyclic [a; b] (last target 0)) as [l|] eqn:Eb; [|discriminate]. injection E as E.
  pose proof Am as (_ & _ & _ & _ & Eq & _). specialize (Eq l E). pose proof Pos as Pos'. pose proof Small as Small'. rewrite Ev in Pos', Small'. cbn [size] in Small'. inversion Pos' as [|? ? Pa Q]; subst. inversion Q as [|? ? Pb _]; subst. rewrite Z.mul_1_r in Small'.
  assert (a < 2 ^ 32 /\ b < 2 ^ 32) by nia. destruct (C72_bicyclic a b (last target 0) l) as (M & _ & Wn & _); try lia; [exact Eb|].
  assert (Nl : nd l = 2%nat /\ nr l = 2%nat).
  { clear - Eb. unfold bicyclic in Eb. destruct (negb _) in Eb; [discriminate|]. apply some_inj in Eb. rewrite <- Eb.
    repeat match goal with |- context [add_mod_eq ?r ?l ?m ?v] => let D := fresh in destruct (dims_mod_eq r l m v) as D; destruct D as (-> & ->) end. split; reflexivity. }
  destruct (two_dims l Eq (proj2 Nl)) as (cts & slots & Et). assert (El : last target 0 = slots) by (rewrite Et; reflexivity). rewrite El in *.
  set (n := (a * b + slots - 1) / slots) in *. assert (Hn : 0 < n) by (unfold n; apply Z.div_str_pos; nia).
  assert (Cn : cts = n).
  { apply (crt_cts cts slots n l); auto; [lia| |].
    - intros d ct slot Hx. now apply Wn in Hx as (_ & Hx & _).
    - exists [((n - 1) * slots + 0) mod a; ((n - 1) * slots + 0) mod b], 0. apply M. splits; lia. }
  rewrite <- El. apply (crt_fold cts slots); auto; [lia|]. intros d ct slot. rewrite <- points, Eq. rewrite Ev. cbn [map]. split.
  - intros Hx. pose proof Hx as (Ld & _). rewrite (proj1 Nl) in Ld. destruct d as [|i [|j [|]]]; try discriminate Ld. apply M in Hx as (? & ? & -> & ->). rewrite Cn. auto.
  - intros (? & ? & ->). apply M. rewrite <- Cn. auto.
Qed.
Lemma tricyclic_ok : scalar v = false -> is_tricyclic ex (shape v) (last target 0) r' = Some true ->
  exists m, denote zero junk v target (Crt (shape v) (if (length target =? 2)%nat then dim target 0 else 1) (last target 0)) = Some m /\ packed zero R (element v) target m.
Proof.
  intros Es E. unfold is_tricyclic in E. assert (Ev : exists a b c, shape v = [a; b; c]) by (clear - E; destruct (shape v) as [|a [|b [|c [|]]]]; try discriminate E; eauto).
  destruct Ev as (a & b & c & Ev). rewrite Ev in E. cbn [length Nat.eqb negb dim nth] in E.
  destruct (_ || _) in E; [discriminate|]. destruct (_ || _) in E; [discriminate|]. destruct (tricyclic [a; b; c] (last target 0)) as [l|] eqn:Eb; [|discriminate]. injection E as E.
  pose proof Am as (_ & _ & _ & _ & Eq & _). specialize (Eq l E). pose proof Pos as Pos'. pose proof Small as Small'. rewrite Ev in Pos', Small'. cbn [size] in Small'. inversion Pos' as [|? ? Pa Q]; subst. inversion Q as [|? ? Pb Q2]; subst. inversion Q2 as [|? ? Pc _]; subst. rewrite Z.mul_1_r, Z.mul_assoc in Small'.
  destruct (C72_tricyclic a b c (last target 0) l) as (M & _ & Wn & _); try lia; [exact Eb|].
  assert (Nl : nd l = 3%nat /\ nr l = 2%nat).
  { clear - Eb. unfold tricyclic in Eb. destruct (negb _) in Eb; [discriminate|]. apply some_inj in Eb. rewrite <- Eb.
    repeat match goal with |- context [add_mod_eq ?r ?l ?m ?v] => let D := fresh in destruct (dims_mod_eq r l m v) as D; destruct D as (-> & ->) end. split; reflexivity. }
  destruct (two_dims l Eq (proj2 Nl)) as (cts & slots & Et). assert (El : last target 0 = slots) by (rewrite Et; reflexivity). rewrite El in *.
  set (n := (a * b * c + slots - 1) / slots) in *. assert (Hn : 0 < n) by (unfold n; apply Z.div_str_pos; nia).
  assert (Cn : cts = n).
  { apply (crt_cts cts slots n l); auto; [lia| |].
    - intros d ct slot Hx. now apply Wn in Hx as (_ & Hx & _).
    - exists [((n - 1) * slots + 0) mod a; ((n - 1) * slots + 0) mod b; ((n - 1) * slots + 0) mod c], 0. apply M. splits; lia. }
  rewrite <- El. apply (crt_fold cts slots); auto; [lia|]. intros d ct slot. rewrite <- points, Eq. rewrite Ev. cbn [map]. split.
  - intros Hx. pose proof Hx as (Ld & _). rewrite (proj1 Nl) in Ld. destruct d as [|i [|j [|k [|]]]]; try discriminate Ld. apply M in Hx as (? & ? & -> & -> & ->). rewrite Cn. auto.
  - intros (? & ? & ->). apply M. rewrite <- Cn. auto.
Qed.

Lemma bicyclic_decides shape slots q : exists b, is_bicyclic ex shape slots q = Some b.
Proof.
  unfold is_bicyclic. destruct (negb (length shape =? 2)%nat); [eauto|]. destruct (_ || _); [eauto|]. unfold bicyclic. destruct (Z.gcd _ _ =? 1); cbn [negb]; eauto.
Qed.
Lemma tricyclic_decides shape slots q : exists b, is_tricyclic ex shape slots q = Some b.
Proof.
  unfold is_tricyclic. destruct (length shape =? 3)%nat eqn:E; cbn [negb]; [|eauto]. destruct (_ || _); [eauto|]. destruct (_ || _); [eauto|]. unfold tricyclic. rewrite E. cbn [negb]. eauto.
Qed.
Lemma dense_decides : exists b, is_dense ex r' target = Some b /\ (b = true -> forall g, in_box target g -> exists d, R d g).
Proof.
  pose proof Am as (_ & Fo & _ & _ & _ & Rg & _). unfold is_dense.
  assert (E : exists e, (if single_valued ex r' then match domain_box r' (lower ex r') (upper ex r') with Some (lb, ub) => Some (match volume 1 (sizes lb ub) with Some v => v <? elements target | None => false end) | None => None end else Some false) = Some e).
  { destruct (single_valued ex r'); [|eauto]. destruct (box_exists r' (lower ex r') (upper ex r') formed) as ((lb, ub) & ->); eauto. destruct some_point as (d & g & H). exists d, g. now apply points. }
  destruct E as (e & ->). destruct e; [exists false; split; [reflexivity|discriminate]|]. destruct (negb _); [exists false; split; [reflexivity|discriminate]|].
  eexists. split; [reflexivity|]. intros H g B. apply (Rg target H g) in B as (d & B). exists d. now apply points.
Qed.
Hypothesis Tr : exists t, tree ex r' (schedule_of r' given) = Some t /\ walks r' (schedule_of r' given) t /\ Codegen_Spec.is_loop t.
Lemma step_ok : exists c m, assign_step zero is_zero width encode decode ex v r target given st = Some c /\ denote zero junk v target c = Some m /\ packed zero R (element v) target m.
Proof.
  destruct first_leaf as (x & l & Lv). pose proof P as (Sh & Sc & Sp & Kn). unfold assign_step. fold r'. rewrite Lv.
  assert (Bs : scalar v = true \/ scalar v = false) by (clear; destruct (scalar v); auto).
  set (splat := match known v with Constant s => s | _ => false end).
  assert (Ks : splat = true -> known v = Constant true) by (unfold splat; destruct (known v) as [| |[]|]; congruence).
  destruct (splat && is_zero x) eqn:Z0.
  { apply andb_true_iff in Z0 as (Z1 & Z2). apply zero_ok in Z2. exists Zeros, (filled target zero). splits. subst x. apply packed_const; [|now left].
    intros d g H. apply (all_same zero l (or_introl (Ks Z1)) Lv d g H). }
  assert (Nest_ok : exists c m, (match tree ex r' (schedule_of r' given) with Some t => match Codegen_Model.generate false t [data0] 1 with Some (prog, outs) => match outs with o :: _ => Some (Nest r' prog o) | [] => None end | None => None end | None => None end) = Some c /\
            denote zero junk v target c = Some m /\ packed zero R (element v) target m).
  { destruct Tr as (t & Et & Wt & Lt). destruct (nest_ok (schedule_of r' given) t Et Wt Lt) as (prog & o & outs & m & G & D & K). rewrite Et, G. eauto. }
  assert (Kn' : forall A (a b : A), match known v with Nothing_stored => a | _ => b end = b) by (intros; destruct (known v); congruence).
  replace (match known v with Nothing_stored => _ | _ => _ end) with
    (match (if scalar v then Some false else match is_bicyclic ex (shape v) (last target 0) r' with Some b => if b then Some true else is_tricyclic ex (shape v) (last target 0) r' | None => None end) with
     | Some cyclic => if cyclic then Some (Crt (shape v) (if (length target =? 2)%nat then dim target 0 else 1) (last target 0)) else
        match (if scalar v || splat || (negb (scalar v) && (elements (shape v) =? 1)) then is_dense ex r' target else Some false) with
        | Some dense => if dense then (if scalar v then Some (Splat []) else if splat then Some (Splat_constant x) else Some (Splat (repeat 0 (length (shape v)))))
           else match (if should_fold ex r' st (negb (scalar v) && match known v with Constant _ => true | _ => false end) (match known v, width with Resource, Some _ => true | _, _ => false end) && negb (scalar v)
                       then Some (try_folding zero width encode decode ex r' v target (negb (scalar v) && match known v with Constant _ => true | _ => false end && splat) (match known v, width with Resource, Some _ => true | _, _ => false end)) else None) with
                | Some c => c
                | None => match tree ex r' (schedule_of r' given) with Some t => match Codegen_Model.generate false t [data0] 1 with Some (prog, outs) => match outs with o :: _ => Some (Nest r' prog o) | [] => None end | None => None end | None => None end
                end
        | None => None end
     | None => None end) by (destruct (known v); [reflexivity|congruence|reflexivity|reflexivity]).
  set (cyc := if scalar v then Some false else _).
  assert (Cy : exists b, cyc = Some b /\ (b = true -> exists m, denote zero junk v target (Crt (shape v) (if (length target =? 2)%nat then dim target 0 else 1) (last target 0)) = Some m /\ packed zero R (element v) target m)).
  { unfold cyc. destruct Bs as [Es|Es]; rewrite Es; [exists false; split; [reflexivity|discriminate]|]. destruct (bicyclic_decides (shape v) (last target 0) r') as (b & Eb). rewrite Eb. destruct b.
    - exists true. split; [reflexivity|]. intros _. now apply bicyclic_ok.
    - destruct (tricyclic_decides (shape v) (last target 0) r') as (b & Et). rewrite Et. exists b. split; [reflexivity|]. intros ->. now apply tricyclic_ok. }
  destruct Cy as (b & -> & Cy). destruct b; [destruct (Cy eq_refl) as (m & ? & ?); eauto|].
  set (sel := scalar v || splat || (negb (scalar v) && (elements (shape v) =? 1))).
  destruct dense_decides as (b & Ed & Hd).
  assert (De : exists b, (if sel then is_dense ex r' target else Some false) = Some b /\ (b = true -> sel = true /\ forall g, in_box target g -> exists d, R d g)).
  { destruct sel; [rewrite Ed; exists b; auto|exists false; split; [reflexivity|discriminate]]. }
  clear Ed Hd b. destruct De as (b & -> & De). destruct b.
  { destruct (De eq_refl) as (Sl & Al).
    assert (Rest : known v = Constant true \/ scalar v = true \/ size (shape v) = 1).
    { unfold sel in Sl. destruct (scalar v); [auto|]. destruct splat; [left; auto|]. cbn [orb andb negb] in Sl. apply Z.eqb_eq in Sl. rewrite size_elements in Sl. auto. }
    assert (Pk : packed zero R (element v) target (filled target x)).
    { apply packed_const; [|right; exact Al]. intros d g H. apply (all_same x l Rest Lv d g H). }
    destruct Bs as [Es|Es]; rewrite Es.
    - exists (Splat []), (filled target x). splits. cbn [denote]. destruct some_point as (d & g & H). pose proof (all_same x l Rest Lv d g H) as X. unfold element in X. rewrite Es in X. now rewrite X.
    - destruct splat; [exists (Splat_constant x), (filled target x); splits|]. exists (Splat (repeat 0 (length (shape v)))), (filled target x). splits. cbn [denote].
      rewrite <- (get_leaves (shape v)) by (auto using zero_in). now rewrite flat_zeros, Lv. }
  destruct (should_fold _ _ _ _ _ && negb (scalar v)) eqn:Sf; [|exact Nest_ok]. apply andb_true_iff in Sf as (_ & Sf). apply negb_true_iff in Sf.
  destruct (fold_ok (negb (scalar v) && match known v with Constant _ => true | _ => false end && splat) (match known v, width with Resource, Some _ => true | _, _ => false end) Sf) as (m & res & -> & Pk).
  { intros H. apply andb_true_iff in H as (_ & H). auto. }
  exists (Folded m res), m. splits.
Qed.
End Step.
