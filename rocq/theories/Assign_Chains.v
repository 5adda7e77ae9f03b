(** Steps of packing and unpacking one after the other. *)
From Coq Require Import ZArith List Bool Lia Sorting.
From Verif Require Import Rel_Model Rel_Proofs Points_Model Points_Spec Points_Proofs Points_Boxes Layout_Spec Layout_Proofs Assign_Model Assign_Spec Assign_Proofs Assign_Steps Assign_Unpack.
From Verif Require Codegen_Spec Codegen_Model Codegen_Props.
Import ListNotations.
Open Scope Z_scope.

Lemma schedule_ok r given : Forall (fun i => (i < nd r)%nat) given -> Forall (fun i => (i < nd r)%nat) (schedule_of r given) /\ incl (seq 0 (nd r)) (schedule_of r given).
Proof.
  intros G. unfold schedule_of. split.
  - apply Forall_app. split; [exact G|]. apply Forall_forall. intros i Hi. apply filter_In in Hi as (Hi & _). apply in_seq in Hi. lia.
  - intros i Hi. apply in_or_app. destruct (existsb (Nat.eqb i) given) eqn:E.
    + left. apply existsb_exists in E as (j & J & E). apply Nat.eqb_eq in E. now subst.
    + right. apply filter_In. split; [exact Hi|]. now rewrite E.
Qed.

Lemma points0 {T} (v : value T) r : (scalar v = false -> nd r = length (shape v)) -> forall d g, relates (if scalar v then r else bound_all r 0 (shape v)) d g <-> placed v r d g.
Proof. intros N d g. unfold placed. destruct (scalar v) eqn:E; [tauto|]. rewrite restrict_relates by auto. intuition discriminate. Qed.
Lemma formed0 {T} (v : value T) r : well_formed r -> well_formed (if scalar v then r else bound_all r 0 (shape v)).
Proof. intros W. destruct (scalar v); [exact W|]. apply fits_formed, fits_bound_all, formed_fits, W. Qed.

(** the points of relations one after the other are finite in number *)
Lemma chain_list ex rs : forall s targets, rs <> [] -> layered ex s rs targets -> exists l, forall d h, In (d, h) l <-> chained rs d h.
Proof.
  induction rs as [|r rs IH]; intros s targets Ne L; [easy|]. destruct targets as [|target targets]; [easy|]. destruct L as (W & _ & _ & _ & _ & _ & _ & _ & _ & _ & C & L).
  destruct (C r W) as ((_ & _ & _ & (_ & Pt) & _) & _); [tauto|]. set (l := map (fun p => (firstn (nd r) p, skipn (nd r) p)) (wrapped ex r)).
  assert (Hl : forall d g, In (d, g) l <-> relates r d g).
  { intros d g. unfold l. rewrite in_map_iff. split.
    - intros (p & [= <- <-] & Hp). apply Pt in Hp as (d & g & -> & H). pose proof H as (Ld & _). rewrite firstn_app, skipn_app, Ld, Nat.sub_diag, firstn_all2, skipn_all2 by lia. cbn. now rewrite app_nil_r.
    - intros H. exists (d ++ g). pose proof H as (Ld & _). split; [|apply Pt; eauto]. rewrite firstn_app, skipn_app, Ld, Nat.sub_diag, firstn_all2, skipn_all2 by lia. cbn. now rewrite app_nil_r. }
  destruct rs as [|r2 rs].
  - exists l. intros d h. rewrite Hl. cbn. split; [intros H; exists h; auto|intros (g & H & <-); exact H].
  - destruct (IH target targets) as (k & Hk); [discriminate|exact L|].
    exists (flat_map (fun p => flat_map (fun q => if list_eq_dec Z.eq_dec (snd p) (fst q) then [(fst p, snd q)] else []) k) l). intros d h. rewrite in_flat_map. split.
    + intros ((d', g) & I1 & I2). apply in_flat_map in I2 as ((g', h') & I2 & I3). cbn [fst snd] in I3. destruct (list_eq_dec Z.eq_dec g g') as [<-|]; [|easy]. destruct I3 as [[= <- <-]|[]]. exists g. split; [now apply Hl|now apply Hk].
    + intros (g & H1 & H2). exists (d, g). split; [now apply Hl|]. apply in_flat_map. exists (g, h). split; [now apply Hk|]. cbn [fst snd]. destruct (list_eq_dec Z.eq_dec g g); [now left|easy].
Qed.
Lemma chain_source ex rs s targets h : rs <> [] -> layered ex s rs targets -> (exists g, chained rs g h) \/ forall g, ~ chained rs g h.
Proof.
  intros Ne L. destruct (chain_list ex rs s targets Ne L) as (l & Hl). destruct (existsb (fun p => if list_eq_dec Z.eq_dec (snd p) h then true else false) l) eqn:E.
  - left. apply existsb_exists in E as ((d, h') & I & E). cbn [snd] in E. destruct (list_eq_dec Z.eq_dec h' h) as [->|]; [|discriminate]. exists d. now apply Hl.
  - right. intros g G. apply Hl in G. apply not_true_iff_false in E. apply E. apply existsb_exists. exists (g, h). split; [exact G|]. cbn [snd]. now destruct (list_eq_dec Z.eq_dec h h).
Qed.

Section Chains.
Context {T : Type} (zero : T) (is_zero : T -> bool) (width : option Z) (encode : T -> list Z) (decode : list Z -> T).
Hypothesis zero_ok : forall x, is_zero x = true -> x = zero.
Hypothesis coded : encoding zero width encode decode.

Lemma assign_ok ex v r target given st junk : proper v -> suits v r target -> consulted ex (placed v r) ->
  (forall d e g, placed v r d g -> placed v r e g -> element v d = element v e) -> Forall (fun i => (i < nd r)%nat) given ->
  exists c m, assign_step zero is_zero width encode decode ex v r target given st = Some c /\ denote zero junk v target c = Some m /\ packed zero (placed v r) (element v) target m.
Proof.
  intros P (W & Nd & Nr & Pos & Wi & Ti & Sm) C Fn G.
  destruct (C (if scalar v then r else bound_all r 0 (shape v))) as (Am & Tr).
  { now apply formed0. }
  { now apply points0. }
  apply step_ok; auto. apply Tr; apply schedule_ok; clear - G; destruct (scalar v); auto; destruct (dims_bound_all (shape v) r 0) as (-> & _); auto.
Qed.

Lemma unpack_ok ex r target m ct : let s := match target with Some s => s | None => [] end in let R d g := relates r d g /\ (target = None \/ in_box s d) in
  well_formed r -> (target <> None -> nd r = length s) -> nr r = length ct -> ct <> [] -> shaped ct m -> (target <> None -> forall d g, relates r d g -> Forall (fun x => 0 <= x) d) ->
  (forall d g, R d g -> in_box ct g) -> Forall (fun n => 0 <= n) s -> consulted ex R -> plain ex R ->
  exists u, unpack_step zero ex r target m (length ct) = Some u /\ shaped s u /\
    if match target with None => true | Some s => size s =? 1 end
    then exists d g, R d g /\ forall e, in_box s e -> get u e = get m g
    else forall e, in_box s e -> (exists g, R e g /\ (forall h, R e h -> h = g \/ before g h) /\ get u e = get m g) \/ ((forall g, ~ R e g) /\ get u e = Some zero).
Proof.
  intros s R W Nd Nr Ct M Nn Wi Pos C Pl. set (r' := bound_above r 0 s). destruct (C r') as (Am & Tr).
  { now apply u_formed. } { intros d g. now apply (u_points r target ct). }
  destruct (match target with None => true | Some s => size s =? 1 end) eqn:Si.
  - apply single_ok; auto; [|apply Am]. destruct target as [s'|]; [|now left]. right. now apply Z.eqb_eq.
  - destruct target as [s'|]; [|discriminate Si]. apply Z.eqb_neq in Si. destruct (Tr (seq 0 (nd r'))) as (t & Et & Wt & Lt).
    { apply Forall_forall. intros i Hi. apply in_seq in Hi. lia. } { apply incl_refl. }
    apply (many_ok zero ex r (Some s') m ct Nd Nr M Nn Wi t s' eq_refl Si Pos Et Wt Lt). eapply Pl; [| |exact Et]; [now apply (u_formed r (Some s'))|intros; now apply (u_points r (Some s') ct)].
Qed.

(** ** Arrays *)
Lemma packed_ext (R R' : list Z -> list Z -> Prop) (el el' : list Z -> option T) target m : (forall d g, R d g <-> R' d g) -> (forall d g, R d g -> el d = el' d) -> packed zero R el target m -> packed zero R' el' target m.
Proof.
  intros H E (S & A & B). split; [exact S|]. split.
  - intros d g Q. apply H in Q. rewrite <- (E d g Q). now apply A.
  - intros g G N. apply B; [exact G|]. intros d Q. apply H in Q. now apply (N d).
Qed.
Variables (ex : externals) (most : rel -> nat -> Z) (same : tensor T -> bool) (junk : tensor T) (st : strategy) (slots : Z).
Hypothesis same_ok : forall s t, shaped s t -> same t = true -> forall d e, in_box s d -> in_box s e -> get t d = get t e.

Lemma nth_map_seq {A} (f : nat -> A) n : forall a i d, (i < n)%nat -> nth i (map f (seq a n)) d = f (a + i)%nat.
Proof. intros a i d H. rewrite (nth_indep _ d (f 0%nat)) by (rewrite map_length, seq_length; lia). rewrite map_nth, seq_nth by lia. reflexivity. Qed.
Lemma materialize_ok r target : nr r = length target -> target <> [] -> (forall i, (i < nr r - 1)%nat -> most r i = nth i target 0 - 1) -> last target 0 = slots -> materialize most r slots = target.
Proof.
  intros N Ne H L. unfold materialize. apply nth_ext with (d := 0) (d' := 0).
  - rewrite app_length, map_length, seq_length. cbn. destruct target; [easy|cbn in *; lia].
  - intros i Hi. rewrite app_length, map_length, seq_length in Hi. cbn in Hi. destruct (Nat.eq_dec i (nr r - 1)) as [->|Hn].
    + rewrite app_nth2 by (rewrite map_length, seq_length; lia). rewrite map_length, seq_length, Nat.sub_diag. cbn. rewrite <- L. rewrite (app_removelast_last 0 Ne) at 2. rewrite app_nth2; rewrite removelast_firstn_len, firstn_length; [|lia].
      replace (nr r - 1 - Nat.min (pred (length target)) (length target))%nat with 0%nat by lia. reflexivity.
    + rewrite app_nth1 by (rewrite map_length, seq_length; lia). rewrite nth_map_seq by lia. cbn. rewrite H by lia. lia.
Qed.
Lemma all_some_ok {A} (f : nat -> option A) (g : nat -> A) n : forall a, (forall j, (a <= j < a + n)%nat -> f j = Some (g j)) -> all_some (map f (seq a n)) = Some (map g (seq a n)).
Proof. induction n as [|n IH]; intros a H; cbn; [reflexivity|]. rewrite H by lia. rewrite IH by (intros j J; apply H; lia). reflexivity. Qed.
Lemma map_seq_nth (l : list Z) : map (fun j => nth j l 0) (seq 0 (length l)) = l.
Proof. apply nth_ext with (d := 0) (d' := 0); [now rewrite map_length, seq_length|]. intros i Hi. rewrite map_length, seq_length in Hi. now rewrite nth_map_seq by lia. Qed.
Lemma intermediate_ok r target : nr r = length target -> (forall j, (j < nr r)%nat -> upper ex r (nd r + j) = Some (nth j target 0 - 1)) -> intermediate ex r = Some target.
Proof.
  intros N H. unfold intermediate. rewrite (all_some_ok _ (fun j => nth j target 0)).
  - f_equal. rewrite N. apply map_seq_nth.
  - intros j J. rewrite H by lia. f_equal. lia.
Qed.
Lemma never_empty v r target : known v <> Nothing_stored -> assign_step zero is_zero width encode decode ex v r target [] st <> Some Empty.
Proof.
  intros K A. unfold assign_step in A. destruct (_ && _) in A; [discriminate A|].
  assert (N : forall q splat resource, try_folding zero width encode decode ex q v target splat resource <> Some Empty).
  { intros q splat resource. unfold try_folding. destruct (enumerate _ _ _ _ _); [|discriminate]. destruct width; [destruct (fold_bytes _ _ _ _ _ _ _ _)|destruct (fold_boxed _ _ _ _ _ _ _)]; discriminate. }
  destruct (known v); [|congruence| |];
  (destruct (if scalar v then Some false else _) as [[|]|] in A; [discriminate A| |discriminate A];
  match type of A with (match ?x with _ => _ end) = _ => destruct x as [[|]|] end; [| |discriminate A];
  [destruct (scalar v) in A; [discriminate A|]; repeat (match type of A with (if ?x then _ else _) = _ => destruct x | (match ?x with _ => _ end) = _ => destruct x end; try discriminate A); discriminate A|];
  destruct (_ && _) in A;
  [revert A; apply N| (destruct (tree _ _ _) in A; [|discriminate A]); (destruct (Codegen_Model.generate _ _ _ _) as [(?, [|? ?])|] in A; discriminate A)]).
Qed.
Lemma learned_ok v r target c m : proper v -> suits v r target -> assign_step zero is_zero width encode decode ex v r target [] st = Some c -> denote zero junk v target c = Some m ->
  shaped target m -> proper (Value false target m (learned same c)).
Proof.
  intros P Su A D S. split; [exact S|]. split; [discriminate|]. assert (Fl : forall (x : T) d e, in_box target d -> in_box target e -> get (filled target x) d = get (filled target x) e) by (intros; now rewrite !get_filled).
  split.
  - cbn [known shape content]. destruct c; cbn [learned]; try discriminate; cbn [denote] in D.
    + intros _. injection D as <-. apply Fl.
    + intros _. injection D as <-. apply Fl.
    + injection D as <-. destruct resource; [discriminate|]. intros [= K]. now apply same_ok.
  - cbn [known]. destruct c; cbn [learned]; try discriminate.
    + exfalso. now apply (never_empty v r target (proj2 (proj2 (proj2 P)))).
    + destruct resource; discriminate.
Qed.
Lemma chain_ok rs : forall v targets, scalar v = false -> proper v -> rs <> [] -> layered ex (shape v) rs targets -> finds ex most slots rs targets ->
  exists u, assign_all zero is_zero width encode decode ex most same junk st slots rs v = Some u /\ scalar u = false /\ shape u = last targets [] /\
    packed zero (chained rs) (get (content v)) (last targets []) (content u).
Proof.
  induction rs as [|r rs IH]; intros v targets Es P Ne L F; [easy|]. destruct targets as [|target targets]; [easy|].
  destruct L as (W & Nd & Nr & Pos & Te & Bx & Inj & Ti & Sz & Ls & C & L). destruct F as (F1 & F2 & F3).
  assert (Pl : forall d g, placed v r d g <-> relates r d g). { intros d g. split; [intros H; apply H|]. intros H. split; [exact H|]. right. now apply (Bx d g). }
  assert (Su : suits v r target).
  { split; [exact W|]. split; [auto|]. split; [exact Nr|]. split; [exact Pos|]. split; [intros d g H; apply Pl in H; now apply (Bx d g)|]. split; [|auto]. destruct Ti as (d & g & H & E). exists d, g. split; [now apply Pl|exact E]. }
  destruct (assign_ok ex v r target [] st junk P Su) as (c & m & A & D & Pk).
  { intros q Wq Hq. apply C; [exact Wq|]. intros d g. rewrite Hq. apply Pl. }
  { intros d e g H K. apply Pl in H, K. now rewrite (Inj d e g H K). } { constructor. }
  assert (Et : (match rs with [] => Some (materialize most r slots) | _ => intermediate ex r end) = Some target).
  { destruct rs; [f_equal; apply materialize_ok; auto|now apply intermediate_ok]. }
  cbn [assign_all]. rewrite Et, A, D. pose proof Pk as (Sm & _). pose proof (learned_ok v r target c m P Su A D Sm) as P2.
  assert (Pk1 : packed zero (relates r) (get (content v)) target m).
  { apply (packed_ext (placed v r) _ (element v)); auto. intros d g H. unfold element. now rewrite Es. }
  destruct rs as [|r2 rs].
  - cbn [assign_all]. destruct targets; [|easy]. eexists. split; [reflexivity|]. split; [reflexivity|]. split; [reflexivity|]. cbn [last content].
    apply (packed_ext (relates r) _ (get (content v))); auto. intros d g. cbn. split; [intros H; exists g; auto|intros (h & H & <-); exact H].
  - destruct (IH (Value false target m (learned same c)) targets) as (u & U & S1 & S2 & S3); auto; [discriminate|].
    exists u. split; [exact U|]. split; [exact S1|]. destruct targets as [|t2 targets]; [easy|]. change (last (target :: t2 :: targets) []) with (last (t2 :: targets) []). split; [exact S2|].
    destruct Pk1 as (K1 & K2 & K3). destruct S3 as (Q1 & Q2 & Q3). cbn [content] in *. split; [exact Q1|].
    assert (Cb : forall g h, chained (r2 :: rs) g h -> in_box target g) by (intros g h (k & Hk & _); cbn in L; now apply (proj1 (proj2 (proj2 (proj2 (proj2 (proj2 L)))))) in Hk).
    split.
    + intros d h (g & G & H). rewrite (Q2 g h H). now apply K2.
    + intros h B N. assert (Dec : (exists g, chained (r2 :: rs) g h) \/ forall g, ~ chained (r2 :: rs) g h).
      { eapply chain_source; [discriminate|exact L]. }
      destruct Dec as [(g & G)|Ng]; [|now apply Q3]. rewrite (Q2 g h G). apply K3; [now apply (Cb g h)|]. intros d Hd. apply (N d). exists g. auto.
Qed.

Lemma domain_shape_ok r s : nd r = length s -> (forall j, (j < nd r)%nat -> upper ex r j = Some (nth j s 0 - 1)) -> domain_shape ex r = Some s.
Proof.
  intros N H. unfold domain_shape. rewrite (all_some_ok _ (fun j => nth j s 0)).
  - f_equal. rewrite N. apply map_seq_nth.
  - intros j J. rewrite H by lia. f_equal. lia.
Qed.
Lemma box_one s d e : size s = 1 -> in_box s d -> in_box s e -> d = e.
Proof. intros S1 D E. apply (flat_inj s); auto. pose proof (flat_bound _ _ D). pose proof (flat_bound _ _ E). lia. Qed.
Lemma chain_back rs : forall s targets m, rs <> [] -> layered ex s rs targets -> Forall (fun r => plain ex (relates r)) rs -> carried (tl rs) -> (forall d g, relates (hd (space 0 0 0) rs) d g -> exists h, chained (tl rs) g h) ->
  finds_back ex (tl rs) targets -> shaped (last targets []) m ->
  exists u, unpack_all zero ex rs (Some s) m (length (last targets [])) = Some u /\ shaped s u /\
    forall d, in_box s d -> (exists h, chained rs d h /\ get u d = get m h) \/ ((forall h, ~ chained rs d h) /\ get u d = Some zero).
Proof.
  induction rs as [|r rs IH]; intros s targets m Ne L Pl Ca C1 F M; [easy|]. destruct targets as [|target targets]; [easy|].
  destruct L as (W & Nd & Nr & Pos & Te & Bx & Inj & Ti & Sz & Ls & C & L). inversion Pl as [|? ? Pr Pl']; subst. cbn [tl hd] in *.
  assert (Step : forall w, shaped target w -> exists u, unpack_step zero ex r (Some s) w (length target) = Some u /\ shaped s u /\
            forall d, in_box s d -> (exists g, relates r d g /\ get u d = get w g) \/ ((forall g, ~ relates r d g) /\ get u d = Some zero)).
  { intros w Sw. assert (Rr : forall d g, relates r d g <-> relates r d g /\ (Some s = None \/ in_box s d)). { intros d g. split; [|tauto]. intros H. split; [exact H|]. right. now apply (Bx d g). }
    destruct (unpack_ok ex r (Some s) w target) as (u & U & Su & K); auto.
    - intros _ d g H. apply Bx in H as (H & _). clear - H. induction H; constructor; auto. lia.
    - intros d g (H & _). now apply (Bx d g).
    - eapply Forall_impl; [|exact Pos]. cbn. intros; lia.
    - intros q Wq Hq. apply C; [exact Wq|]. intros d g. rewrite Hq. symmetry. apply Rr.
    - intros q t Wq Hq. apply Pr; [exact Wq|]. intros d g. rewrite Hq. symmetry. apply Rr.
    - exists u. split; [exact U|]. split; [exact Su|]. cbn in K. intros d B. destruct (size s =? 1) eqn:E1.
      + apply Z.eqb_eq in E1. destruct K as (e & g & (H & _) & K). left. exists g. split; [|now apply K]. rewrite (box_one s d e); auto. now apply (Bx e g).
      + destruct (K d B) as [(g & (H & _) & _ & K2)|(K1 & K2)]; [left; eauto|]. right. split; [|exact K2]. intros g H. apply (K1 g). now apply Rr. }
  destruct rs as [|r2 rs].
  - cbn [unpack_all]. destruct targets; [|easy]. cbn [last] in *. destruct (Step m M) as (u & U & Su & K). exists u. split; [exact U|]. split; [exact Su|]. intros d B. destruct (K d B) as [(g & H & K2)|(K1 & K2)].
    + left. exists g. split; [|exact K2]. cbn. eauto. + right. split; [|exact K2]. intros h (g & H & <-). now apply (K1 g).
  - destruct targets as [|t2 targets]; [easy|]. destruct F as (F1 & F2). destruct Ca as (Ca1 & Ca2).
    destruct (IH target (t2 :: targets) m) as (u2 & U2 & Su2 & K2); auto; [discriminate|].
    cbn [unpack_all hd]. assert (Nd2 : nd r2 = length target) by (cbn in L; tauto). rewrite (domain_shape_ok r2 target Nd2 F1).
    change (last (target :: t2 :: targets) []) with (last (t2 :: targets) []) in *. cbn [unpack_all] in U2. rewrite U2. destruct (Step u2 Su2) as (u & U & Su & K). exists u. split; [exact U|]. split; [exact Su|].
    intros d B. destruct (K d B) as [(g & H & Kg)|(K1 & Kg)].
    + left. destruct (K2 g) as [(h & H2 & Kh)|(Nh & _)]; [now apply (Bx d g)| |exfalso; destruct (C1 d g H) as (h & Hh); now apply (Nh h)].
      exists h. split; [exists g; auto|]. now rewrite Kg, Kh.
    + right. split; [|exact Kg]. intros h (g & H & _). now apply (K1 g).
Qed.
End Chains.
