(** Theorems about packing values into ciphertexts and back (lib/Transforms/ConvertToCiphertextSemantics/AssignLayout.cpp). *)
From Coq Require Import String ZArith List Bool Lia Sorting.
From Verif Require Import Rel_Model Rel_Proofs Points_Model Points_Spec Points_Proofs Layout_Spec Layout_Proofs Layout_Props Assign_Model Assign_Spec Assign_Proofs Assign_Steps Assign_Unpack Assign_Chains Assign_Tables.
From Verif Require Import Codegen_Spec.
From Verif Require Codegen_Model Codegen_Proofs Codegen_Props.
Import ListNotations.
Open Scope Z_scope.

(** Whichever way is taken (a constant 0, the loop of remainders, a splat, folding of a constant through its bytes or its elements, or
    a loop nest): the operations leave each element in all slots the relation gives it, and zero in all others. *)
Theorem C75_assign T (zero : T) is_zero width encode decode ex (v : value T) r target given st junk :
  (forall x, is_zero x = true -> x = zero) -> encoding zero width encode decode ->
  proper v -> suits v r target -> consulted ex (placed v r) ->
  (forall d e g, placed v r d g -> placed v r e g -> element v d = element v e) -> Forall (fun i => (i < nd r)%nat) given ->
  exists c m, assign_step zero is_zero width encode decode ex v r target given st = Some c /\ denote zero junk v target c = Some m /\
    packed zero (placed v r) (element v) target m.
Proof. intros. now apply assign_ok. Qed.
Print Assumptions C75_assign.

(** Unpacking reads each element from the first of its slots, and leaves zero where there is none.  The only element of a value, and
    a scalar, come from some slot. *)
Theorem C75_unpack T (zero : T) ex r target m ct :
  let s := match target with Some s => s | None => [] end in
  let R d g := relates r d g /\ (target = None \/ in_box s d) in
  well_formed r -> (target <> None -> nd r = length s) -> nr r = length ct -> ct <> [] -> shaped ct m ->
  (target <> None -> forall d g, relates r d g -> Forall (fun x => 0 <= x) d) -> (forall d g, R d g -> in_box ct g) ->
  Forall (fun n => 0 <= n) s -> consulted ex R -> plain ex R ->
  exists u, unpack_step zero ex r target m (length ct) = Some u /\ shaped s u /\
    if match target with None => true | Some s => size s =? 1 end
    then exists d g, R d g /\ forall e, in_box s e -> get u e = get m g
    else forall e, in_box s e ->
      (exists g, R e g /\ (forall h, R e h -> h = g \/ before g h) /\ get u e = get m g) \/ ((forall g, ~ R e g) /\ get u e = Some zero).
Proof. intros s R. intros. now apply unpack_ok. Qed.
Print Assumptions C75_unpack.

(** Packing and unpacking with a relation gives back each element that has a slot. *)
Theorem C75_roundtrip T (zero : T) is_zero width encode decode ex (v : value T) r target given st junk :
  (forall x, is_zero x = true -> x = zero) -> encoding zero width encode decode ->
  proper v -> suits v r target -> consulted ex (placed v r) -> plain ex (placed v r) -> target <> [] ->
  (forall d e g, placed v r d g -> placed v r e g -> element v d = element v e) -> Forall (fun i => (i < nd r)%nat) given ->
  (scalar v = false -> forall d g, relates r d g -> Forall (fun x => 0 <= x) d) ->
  exists c m u, assign_step zero is_zero width encode decode ex v r target given st = Some c /\ denote zero junk v target c = Some m /\
    unpack_step zero ex r (if scalar v then None else Some (shape v)) m (length target) = Some u /\ shaped (shape v) u /\
    forall d, in_box (shape v) d -> (scalar v = true \/ exists g, relates r d g) -> get u d = element v d.
Proof.
  intros Hz Hc P Su C Pl Te Fn G Nn. destruct (assign_ok zero is_zero width encode decode Hz Hc ex v r target given st junk P Su C Fn G) as (c & m & A & D & Pk).
  exists c, m. pose proof Pk as (Sm & K & _). pose proof Su as (W & Nd & Nr & Pos & Wi & _). pose proof P as (_ & Sc & _).
  assert (Es : match (if scalar v then None else Some (shape v)) with Some s => s | None => [] end = shape v) by (destruct (scalar v) eqn:Es; [now rewrite Sc|reflexivity]).
  assert (Eq : forall d g, placed v r d g <-> relates r d g /\ ((if scalar v then None else Some (shape v)) = None \/ in_box (shape v) d)).
  { intros d g. unfold placed. destruct (scalar v); intuition congruence. }
  destruct (unpack_ok zero ex r (if scalar v then None else Some (shape v)) m target) as (u & U & Sh & X); rewrite ?Es; auto.
  - intros Hn. apply Nd. destruct (scalar v); [congruence|reflexivity].
  - intros Hn. apply Nn. destruct (scalar v); [congruence|reflexivity].
  - intros d g H. apply (Wi d g). now apply Eq.
  - eapply Forall_impl; [|exact Pos]. cbn. intros; lia.
  - intros q Wq Hq. apply C; [exact Wq|]. intros d g. rewrite Hq. symmetry. apply Eq.
  - intros q t Wq Hq. apply Pl; [exact Wq|]. intros d g. rewrite Hq. symmetry. apply Eq.
  - exists u. rewrite Es in *. split; [exact A|]. split; [exact D|]. split; [exact U|]. split; [exact Sh|]. intros d B Hd.
    destruct (scalar v) eqn:Sv.
    + destruct X as (e & g & H & X). rewrite X by exact B. rewrite (K e g) by (now apply Eq). unfold element. now rewrite Sv.
    + destruct Hd as [Hd|Hd]; [discriminate|]. destruct (size (shape v) =? 1) eqn:E1.
      * apply Z.eqb_eq in E1. destruct X as (e & g & H & X). rewrite X by exact B. rewrite (K e g) by (now apply Eq). f_equal. apply (box_one (shape v)); auto. destruct H as (_ & [H|H]); [discriminate|exact H].
      * destruct (X d B) as [(g & H & _ & X')|(N & _)]; [rewrite X'; apply (K d g); now apply Eq|]. exfalso. destruct Hd as (g & Hg). apply (N g). split; [exact Hg|now right].
Qed.
Print Assumptions C75_roundtrip.

(** Layouts one after the other pack by the composition of their relations, whatever is known of the tensors in between ... *)
Theorem C75_array T (zero : T) is_zero width encode decode ex most same junk st slots rs (v : value T) targets :
  (forall x, is_zero x = true -> x = zero) -> encoding zero width encode decode ->
  (forall s t, shaped s t -> same t = true -> forall d e, in_box s d -> in_box s e -> get t d = get t e) ->
  scalar v = false -> proper v -> rs <> [] -> layered ex (shape v) rs targets -> finds ex most slots rs targets ->
  exists u, assign_all zero is_zero width encode decode ex most same junk st slots rs v = Some u /\ shape u = last targets [] /\
    packed zero (chained rs) (get (content v)) (last targets []) (content u).
Proof.
  intros Hz Hc Hs. intros. destruct (chain_ok zero is_zero width encode decode Hz Hc ex most same junk st slots Hs rs v targets) as (u & U & _ & S & K); auto. exists u. auto.
Qed.
Print Assumptions C75_array.
(** ... and unpack by it, if no slot in between is left out later. *)
Theorem C75_array_back T (zero : T) ex rs s targets (m : tensor T) :
  rs <> [] -> layered ex s rs targets -> Forall (fun r => plain ex (relates r)) rs -> carried rs -> finds_back ex (tl rs) targets ->
  shaped (last targets []) m ->
  exists u, unpack_all zero ex rs (Some s) m (length (last targets [])) = Some u /\ shaped s u /\
    forall d, in_box s d -> (exists h, chained rs d h /\ get u d = get m h) \/ ((forall h, ~ chained rs d h) /\ get u d = Some zero).
Proof. intros Ne L Pl Ca F M. destruct rs as [|r rs]; [easy|]. destruct Ca as (C1 & C2). now apply (chain_back zero ex (fun _ _ => 0) (r :: rs) s targets m). Qed.
Print Assumptions C75_array_back.

(** ** Permutations: a list of moves (source ciphertext, source slot, destination ciphertext, destination slot) *)
Definition source (shape : list Z) (q : Z * Z * Z * Z) : list Z := let '(sc, ss, _, _) := q in match shape with [_] => [ss] | _ => [sc; ss] end.
Definition goal (q : Z * Z * Z * Z) : list Z := let '(_, _, dc, ds) := q in [dc; ds].
Definition ciphertexts (shape : list Z) : Z := match shape with [_] => 1 | c :: _ => c | [] => 0 end.
Lemma permutation_fold T (v : value T) cts srcs slots (rank2 : bool) qs : (forall q, In q qs -> exists x, get (content v) (let '(sc, ss, _, _) := q in if rank2 then [sc; ss] else [ss]) = Some x) ->
  exists ws, Forall2 (fun q w => fst w = goal q /\ get (content v) (let '(sc, ss, _, _) := q in if rank2 then [sc; ss] else [ss]) = Some (snd w)) qs ws /\
    forall out, fold_left (permutation_step cts srcs slots rank2 v) qs out = puts ws out.
Proof.
  induction qs as [|(((sc, ss), dc), ds) qs IH]; intros H; [exists []; split; [constructor|reflexivity]|].
  destruct (H (sc, ss, dc, ds)) as (x & X); [now left|]. destruct IH as (ws & F & E); [intros q Hq; apply H; now right|].
  exists (([dc; ds], x) :: ws). split; [constructor; auto|]. intros out. cbn [fold_left]. rewrite E. cbn [permutation_step]. unfold puts. cbn [fold_left fst snd]. f_equal. destruct out; [|reflexivity]. now rewrite X.
Qed.
(** The last move to a slot decides; slots without a move are zero. *)
Theorem C75_permutation T (zero : T) (v : value T) qs slots :
  scalar v = false -> (length (shape v) = 1 \/ length (shape v) = 2)%nat -> Forall (fun n => 0 <= n) (shape v) -> 0 <= slots -> shaped (shape v) (content v) ->
  (forall sc ss dc ds, In (sc, ss, dc, ds) qs -> 0 <= sc < ciphertexts (shape v) /\ in_box (shape v) (source (shape v) (sc, ss, dc, ds)) /\ in_box [ciphertexts (shape v); slots] [dc; ds]) ->
  exists m, assign_permutation zero v qs slots = Some m /\ shaped [ciphertexts (shape v); slots] m /\
    forall g, in_box [ciphertexts (shape v); slots] g ->
      (forall a q b, qs = a ++ q :: b -> goal q = g -> (forall q', In q' b -> goal q' <> g) -> get m g = get (content v) (source (shape v) q)) /\
      ((forall q, In q qs -> goal q <> g) -> get m g = Some zero).
Proof.
  intros Sc Rk Pos Sp Sh H. unfold assign_permutation. rewrite Sc. set (s := shape v) in *.
  assert (Rk' : (exists n, s = [n]) \/ exists c n, s = [c; n]) by (clear - Rk; destruct s as [|a [|b [|]]]; cbn in Rk; try lia; eauto).
  assert (E1 : false || negb ((length s =? 1) || (length s =? 2))%nat = false) by (destruct Rk' as [(n & ->)|(c & n & ->)]; reflexivity). rewrite E1. clear E1.
  assert (E2 : (if (length s =? 2)%nat then dim s 0 else 1) = ciphertexts s) by (destruct Rk' as [(n & ->)|(c & n & ->)]; reflexivity). rewrite E2.
  assert (E3 : forall q : Z * Z * Z * Z, (let '(sc, ss, _, _) := q in if (length s =? 2)%nat then [sc; ss] else [ss]) = source s q).
  { intros (((sc, ss), dc), ds). destruct Rk' as [(n & ->)|(c & n & ->)]; reflexivity. }
  assert (Fb : forallb (in_bounds (ciphertexts s) (dim s (length s - 1)) slots) qs = true).
  { apply forallb_forall. intros (((sc, ss), dc), ds) Hq. destruct (H _ _ _ _ Hq) as (B1 & B2 & B3). inversion B3 as [|? ? ? ? B4 B5]; subst. inversion B5; subst.
    assert (Bs : ss < dim s (length s - 1)). { destruct Rk' as [(n & Es)|(c & n & Es)]; rewrite Es in *; cbn in B2 |- *; inversion B2 as [|? ? ? ? X1 X2]; subst; [lia|inversion X2; subst; lia]. }
    cbn [in_bounds]. apply negb_true_iff. rewrite !orb_false_iff. repeat split; apply Z.leb_gt; lia. }
  rewrite Fb. destruct (permutation_fold T v (ciphertexts s) (dim s (length s - 1)) slots (length s =? 2)%nat qs) as (ws & F & E).
  { intros q Hq. rewrite E3. destruct q as (((sc, ss), dc), ds). destruct (H _ _ _ _ Hq) as (_ & B2 & _). now apply (get_shaped s). }
  rewrite E.
  assert (Fs : Forall (fun n => 0 <= n) [ciphertexts s; slots]). { repeat constructor; [|lia]. destruct Rk' as [(n & ->)|(c & n & Es)]; [cbn; lia|]. rewrite Es in Pos |- *. cbn. now inversion Pos. }
  destruct (puts_ok [ciphertexts s; slots] ws (filled [ciphertexts s; slots] zero)) as (m & Em & Sm & Gm).
  { now apply filled_shaped. }
  { intros g x Hw. destruct (forall2_in_r _ _ _ F _ Hw) as ((((sc, ss), dc), ds) & Hq & X & _). cbn [fst goal] in X. subst g. now apply (H sc ss dc ds). }
  exists m. split; [exact Em|]. split; [exact Sm|]. intros g B. rewrite Gm. split.
  - intros a q b Eq Hg Hb. rewrite Eq in F. apply Forall2_app_inv_l in F as (wa & wb & Fa & Fb' & Ew). inversion Fb' as [|? w ? wc (X1 & X2) Fc]; subst.
    rewrite last_write_app. cbn [last_write]. destruct w as (g', x). cbn [fst snd] in *. subst g'.
    replace (last_write (goal q) wc) with (@None T).
    + destruct (list_eq_dec Z.eq_dec (goal q) (goal q)); [|easy]. rewrite <- X2. f_equal. apply E3.
    + symmetry. apply last_write_none. intros y Hy. destruct (forall2_in_r _ _ _ Fc _ Hy) as (q' & Hq' & X & _). cbn in X. now apply (Hb q' Hq').
  - intros N. replace (last_write g ws) with (@None T); [now apply get_filled|]. symmetry. apply last_write_none. intros y Hy. destruct (forall2_in_r _ _ _ F _ Hy) as (q & Hq & X & _). now apply (N q Hq).
Qed.
Print Assumptions C75_permutation.
(** A move beyond the end of the input or of the ciphertexts is an error. *)
Theorem C75_permutation_beyond T (zero : T) (v : value T) qs slots sc ss dc ds :
  In (sc, ss, dc, ds) qs -> (ciphertexts (shape v) <= sc \/ last (shape v) 0 <= ss \/ ciphertexts (shape v) <= dc \/ slots <= ds) ->
  assign_permutation zero v qs slots = None.
Proof.
  intros I H. unfold assign_permutation. destruct (scalar v || _) eqn:E; [reflexivity|]. set (s := shape v) in *. apply orb_false_iff in E as (_ & E). apply negb_false_iff in E.
  assert (Rk' : (exists n, s = [n]) \/ exists c n, s = [c; n]) by (clear - E; destruct s as [|a [|b [|]]]; cbn in E; try discriminate; eauto).
  assert (E2 : (if (length s =? 2)%nat then dim s 0 else 1) = ciphertexts s) by (destruct Rk' as [(n & ->)|(c & n & ->)]; reflexivity). rewrite E2.
  assert (E3 : dim s (length s - 1) = last s 0) by (destruct Rk' as [(n & ->)|(c & n & ->)]; reflexivity). rewrite E3.
  destruct (forallb _ qs) eqn:F; [|reflexivity]. rewrite forallb_forall in F. specialize (F _ I). cbn in F. apply negb_true_iff in F. rewrite !orb_false_iff, !Z.leb_gt in F. lia.
Qed.
Print Assumptions C75_permutation_beyond.
(** Not so before the start: a negative index passes the check, and the access is out of bounds. *)
Theorem C75_permutation_negative_refuted : exists (v : value Z) sc ss dc ds slots,
  shaped (shape v) (content v) /\ in_bounds 1 (last (shape v) 0) slots (sc, ss, dc, ds) = true /\ get (content v) [ss] = None /\
  fold_left (permutation_step 1 (last (shape v) 0) slots false v) [(sc, ss, dc, ds)] (Some (filled [1; slots] 0)) = None.
Proof.
  exists (Value false [2] (Vector [Elem 5; Elem 6]) Unknown), 0, (-1), 0, 1, 2. split; [|vm_compute; auto]. eexists. split; [reflexivity|]. split; [reflexivity|]. repeat constructor; eexists; reflexivity.
Qed.
Print Assumptions C75_permutation_negative_refuted.

Ltac boxes := unfold in_box; repeat (apply Forall2_cons; [lia|]); apply Forall2_nil.
(** ** Example: the vector [10; 20; 30; 40], stored twice in a ciphertext of 8 slots *)
Definition four : value Z := Value false [4] (Vector [Elem 10; Elem 20; Elem 30; Elem 40]) Unknown.
Definition twice : rel := row_major [4] 8.
Definition twice_points : table := [([0], [0; 0]); ([0], [0; 4]); ([1], [0; 1]); ([1], [0; 5]); ([2], [0; 2]); ([2], [0; 6]); ([3], [0; 3]); ([3], [0; 7])].
(** for (c0 = 0; c0 <= 3; c0 += 1) for (c1 = c0; c1 <= 7; c1 += 4) S(c0, 0, c1) *)
Definition twice_nest : node :=
  NFor "c0" (EInt 0) (EOp OLe [EId "c0"; EInt 3]) (EInt 1) (NFor "c1" (EId "c0") (EOp OLe [EId "c1"; EInt 7]) (EInt 4) (NUser [EId "c0"; EInt 0; EId "c1"])).
(** before it the identity on 4 elements *)
Definition same4 : rel := Rel 1 1 0 [[1; -1; 0]] [[1; 0; 0]; [-1; 0; 3]].
Definition same4_points : table := [([0], [0]); ([1], [1]); ([2], [2]); ([3], [3])].
Definition same4_nest : node := NFor "c0" (EInt 0) (EOp OLe [EId "c0"; EInt 3]) (EInt 1) (NUser [EId "c0"; EId "c0"]).
Definition library : externals :=
  tabulated (fun r => if (nr r =? 1)%nat then same4_points else twice_points) (fun r => if (nr r =? 1)%nat then same4_nest else twice_nest).
Definition pack (st : strategy) (v : value Z) : option (code Z) := assign_step 0 (Z.eqb 0) None (fun _ => []) (fun _ => 0) library v twice [1; 8] [] st.

Lemma in_box1 n d : in_box [n] d <-> exists x, d = [x] /\ 0 <= x < n.
Proof. split; [intros H; inversion H as [|? x ? ? B C]; subst; inversion C; subst; eauto|intros (x & -> & B); boxes]. Qed.
Lemma twice_relates d g : relates twice d g <-> In (d, g) twice_points.
Proof.
  assert (G2 : forall d g, relates twice d g -> exists a b, g = [a; b]) by (intros ? g' (_ & L & _); destruct g' as [|a [|b [|]]]; try discriminate L; eauto).
  assert (M : forall d ct slot, relates twice d [ct; slot] <-> in_box [4] d /\ 0 <= slot < 8 /\ ct = flat [4] d / 8 /\ slot mod 4 = flat [4] d mod 8).
  { refine (proj1 (C72_row_major [4] 8 4 _ _ _ _)); [repeat constructor|cbn; lia|lia|]. split; [exists 2; split; [lia|reflexivity]|cbn; lia]. }
  split.
  - intros H. destruct (G2 d g H) as (a & b & ->). apply M in H as (B & Hb & -> & E). apply in_box1 in B as (x & -> & Hx). cbn [flat size] in *.
    assert (Xs : x = 0 \/ x = 1 \/ x = 2 \/ x = 3) by lia. assert (Bs : b = 0 \/ b = 1 \/ b = 2 \/ b = 3 \/ b = 4 \/ b = 5 \/ b = 6 \/ b = 7) by lia.
    destruct Xs as [->|[->|[->| ->]]], Bs as [->|[->|[->|[->|[->|[->|[->| ->]]]]]]]; cbn in E; try discriminate E; cbn; auto 10.
  - intros H. unfold twice_points in H. repeat (destruct H as [[= <- <-]|H]; [apply M; cbn; splits; try lia; repeat constructor; lia|]). easy.
Qed.
Lemma same4_relates d g : relates same4 d g <-> In (d, g) same4_points.
Proof.
  split.
  - intros (Ld & Lg & l & Ll & (E & I)). cbn in Ld, Lg, Ll. destruct d as [|x [|]]; try discriminate Ld. destruct g as [|y [|]]; try discriminate Lg. destruct l; [|discriminate Ll].
    inversion E as [|? ? E1 _]; subst. inversion I as [|? ? I1 I2]; subst. inversion I2 as [|? ? I3 _]; subst. cbn -[Z.mul Z.add] in E1, I1, I3. assert (y = x) by lia. subst y.
    assert (Xs : x = 0 \/ x = 1 \/ x = 2 \/ x = 3) by lia. destruct Xs as [->|[->|[->| ->]]]; cbn; auto.
  - intros H. cbn in H. repeat (destruct H as [[= <- <-]|H]; [split; [reflexivity|]; split; [reflexivity|]; exists []; split; [reflexivity|]; split; repeat constructor; cbn; lia|]). easy.
Qed.
Lemma nodup_b (l : table) : (fix go l := match l with [] => true | p :: l => negb (existsb (fun q => if list_eq_dec Z.eq_dec (fst p) (fst q) then if list_eq_dec Z.eq_dec (snd p) (snd q) then true else false else false) l) && go l end) l = true -> NoDup l.
Proof.
  induction l as [|p l IH]; intros H; [constructor|]. apply andb_true_iff in H as (H & K). constructor; [|now apply IH]. intros I. apply negb_true_iff in H. apply not_true_iff_false in H. apply H.
  apply existsb_exists. exists p. split; [exact I|]. destruct (list_eq_dec Z.eq_dec (fst p) (fst p)); [|easy]. now destruct (list_eq_dec Z.eq_dec (snd p) (snd p)).
Qed.
Lemma library_twice : consulted library (relates twice).
Proof.
  unfold library. apply tabulated_ok with (n := 2%nat).
  - intros r _ N. rewrite N. cbn [Nat.eqb]. split; [apply nodup_b; vm_compute; reflexivity|]. split; [discriminate|]. intros d g. symmetry. apply twice_relates.
  - exists [0], [0; 0]. apply twice_relates. now left.
  - intros d g H. apply twice_relates in H. cbn in H. repeat (destruct H as [[= <- <-]|H]; [split; reflexivity|]). easy.
  - intros r _ N. rewrite N. cbn [Nat.eqb]. split; [|split; [exact I|]].
    + split; [easy|]. split; [reflexivity|]. split; [exists OLe, (EInt 3); auto|]. split; [exists 1; easy|]. split; [intros [H|[]]; discriminate H|]. split; [reflexivity|]. split; [exists OLe, (EInt 7); auto|]. split; [exists 4; easy|]. repeat constructor.
    + exists (map (fun p => fst p ++ snd p) twice_points). split; [|split].
      * assert (H : exists tr, runs [] twice_nest tr /\ tr = map (fun p => fst p ++ snd p) twice_points) by (eexists; split; [run_tree|reflexivity]). destruct H as (tr & H & <-). exact H.
      * intros p. rewrite in_map_iff. split; [intros ((d, g) & <- & H); exists d, g; split; [reflexivity|now apply twice_relates]|intros (d & g & -> & H); exists (d, g); split; [reflexivity|now apply twice_relates]].
      * apply sorted_b_ok. vm_compute. reflexivity.
Qed.
Lemma library_same4 : consulted library (relates same4).
Proof.
  unfold library. apply tabulated_ok with (n := 1%nat).
  - intros r _ N. rewrite N. cbn [Nat.eqb]. split; [apply nodup_b; vm_compute; reflexivity|]. split; [discriminate|]. intros d g. symmetry. apply same4_relates.
  - exists [0], [0]. apply same4_relates. now left.
  - intros d g H. apply same4_relates in H. cbn in H. repeat (destruct H as [[= <- <-]|H]; [split; reflexivity|]). easy.
  - intros r _ N. rewrite N. cbn [Nat.eqb]. split; [|split; [exact I|]].
    + split; [easy|]. split; [reflexivity|]. split; [exists OLe, (EInt 3); auto|]. split; [exists 1; easy|]. repeat constructor.
    + exists (map (fun p => fst p ++ snd p) same4_points). split; [|split].
      * assert (H : exists tr, runs [] same4_nest tr /\ tr = map (fun p => fst p ++ snd p) same4_points) by (eexists; split; [run_tree|reflexivity]). destruct H as (tr & H & <-). exact H.
      * intros p. rewrite in_map_iff. split; [intros ((d, g) & <- & H); exists d, g; split; [reflexivity|now apply same4_relates]|intros (d & g & -> & H); exists (d, g); split; [reflexivity|now apply same4_relates]].
      * apply sorted_b_ok. vm_compute. reflexivity.
Qed.
Lemma twice_inj d e g : relates twice d g -> relates twice e g -> d = e.
Proof. intros H K. apply twice_relates in H, K. cbn in H, K. repeat (destruct H as [[= <- <-]|H]; [repeat (destruct K as [K|K]; [congruence|]); easy|]). easy. Qed.
Lemma twice_in d g : relates twice d g -> in_box [4] d /\ in_box [1; 8] g.
Proof. intros H. apply twice_relates in H. cbn in H. repeat (destruct H as [[= <- <-]|H]; [split; boxes|]). easy. Qed.
Lemma twice_formed : well_formed twice.
Proof. intros e. vm_compute. intros [H|H]; repeat (destruct H as [<-|H]; [reflexivity|]); easy. Qed.

Example C75_nonvacuous :
  proper four /\ suits four twice [1; 8] /\ consulted library (placed four twice) /\ plain library (placed four twice) /\
  (forall d e g, placed four twice d g -> placed four twice e g -> element four d = element four e) /\
  (exists prog o, pack Auto four = Some (Nest (bound_all twice 0 [4]) prog o)) /\
  (match pack Auto four with Some c => denote 0 (Elem 0) four [1; 8] c | None => None end) = Some (Vector [Vector [Elem 10; Elem 20; Elem 30; Elem 40; Elem 10; Elem 20; Elem 30; Elem 40]]) /\
  pack Auto (Value false [4] (content four) (Constant false)) = Some (Folded (Vector [Vector [Elem 10; Elem 20; Elem 30; Elem 40; Elem 10; Elem 20; Elem 30; Elem 40]]) false) /\
  unpack_step 0 library twice (Some [4]) (Vector [Vector [Elem 1; Elem 2; Elem 3; Elem 4; Elem 5; Elem 6; Elem 7; Elem 8]]) 2 = Some (Vector [Elem 1; Elem 2; Elem 3; Elem 4]) /\
  assign_permutation 0 four [(0, 1, 0, 2); (0, 3, 0, 0); (0, 0, 0, 2)] 4 = Some (Vector [Vector [Elem 40; Elem 0; Elem 10; Elem 0]]).
Proof.
  assert (Pl : forall d g, placed four twice d g <-> relates twice d g). { intros d g. split; [intros H; apply H|]. intros H. split; [exact H|]. right. now apply twice_in in H. }
  split; [|split; [|split; [|split; [|split]]]].
  - split; [|split; [discriminate|split; [discriminate|discriminate]]]. eexists. split; [reflexivity|]. split; [reflexivity|]. repeat constructor; eexists; reflexivity.
  - split; [exact twice_formed|]. split; [reflexivity|]. split; [reflexivity|]. split; [repeat constructor|]. split; [intros d g H; apply Pl in H; now apply twice_in in H|].
    split; [exists [0], [0; 0]; split; [apply Pl, twice_relates; now left|reflexivity]|]. cbn. lia.
  - intros q Wq Hq. apply library_twice; [exact Wq|]. intros d g. rewrite Hq. apply Pl.
  - intros q t Wq Hq. cbn. intros [= <-]. destruct (nr q =? 1)%nat; exact I.
  - intros d e g H K. apply Pl in H, K. now rewrite (twice_inj d e g H K).
  - split; [vm_compute; eauto|]. vm_compute. auto.
Qed.
(** Arrays: the identity first, then twice. *)
Example C75_array_nonvacuous :
  layered library [4] [same4; twice] [[4]; [1; 8]] /\ finds library (fun _ _ => 0) 8 [same4; twice] [[4]; [1; 8]] /\
  carried [same4; twice] /\ finds_back library [twice] [[4]; [1; 8]] /\ Forall (fun r => plain library (relates r)) [same4; twice] /\
  option_map (@content Z) (assign_all 0 (Z.eqb 0) None (fun _ => []) (fun _ => 0) library (fun _ _ => 0) (fun _ => false) (Elem 0) Auto 8 [same4; twice] four)
  = Some (Vector [Vector [Elem 10; Elem 20; Elem 30; Elem 40; Elem 10; Elem 20; Elem 30; Elem 40]]) /\
  unpack_all 0 library [same4; twice] (Some [4]) (Vector [Vector [Elem 1; Elem 2; Elem 3; Elem 4; Elem 5; Elem 6; Elem 7; Elem 8]]) 2 = Some (Vector [Elem 1; Elem 2; Elem 3; Elem 4]).
Proof.
  assert (Sin : forall d g, relates same4 d g -> in_box [4] d /\ g = d). { intros d g H. apply same4_relates in H. cbn in H. repeat (destruct H as [[= <- <-]|H]; [split; [boxes|reflexivity]|]). easy. }
  split; [|split; [|split; [|split; [|split]]]].
  - split; [intros e; cbn; intros [H|H]; repeat (destruct H as [<-|H]; [reflexivity|]); easy|]. split; [reflexivity|]. split; [reflexivity|]. split; [repeat constructor|]. split; [discriminate|].
    split; [intros d g H; apply Sin in H as (H & ->); auto|]. split; [intros d e g H K; apply Sin in H as (_ & ->); now apply Sin in K as (_ & ->)|]. split; [exists [3], [3]; split; [apply same4_relates; cbn; auto|reflexivity]|].
    split; [cbn; lia|]. split; [cbn; lia|]. split; [exact library_same4|].
    split; [exact twice_formed|]. split; [reflexivity|]. split; [reflexivity|]. split; [repeat constructor|]. split; [discriminate|]. split; [exact twice_in|]. split; [exact twice_inj|].
    split; [exists [0], [0; 0]; split; [apply twice_relates; now left|reflexivity]|]. split; [cbn; lia|]. split; [cbn; lia|]. split; [exact library_twice|exact I].
  - split; [|split; [discriminate|split; [|split; [reflexivity|exact I]]]].
    + intros [|j] Hj; cbn in Hj; [reflexivity|lia].
    + intros [|j] Hj; cbn in Hj; [reflexivity|lia].
  - split; [|split; [|exact I]].
    + intros d g H. apply Sin in H as (B & ->). apply in_box1 in B as (x & -> & B). exists [0; x]. exists [0; x]. split; [|reflexivity]. apply twice_relates.
      assert (Xs : x = 0 \/ x = 1 \/ x = 2 \/ x = 3) by lia. destruct Xs as [->|[->|[->| ->]]]; cbn; auto 10.
    + intros d g H. exists g. reflexivity.
  - split; [|exact I]. intros [|j] Hj; cbn in Hj; [reflexivity|lia].
  - repeat constructor; intros q t Wq Hq; cbn; intros [= <-]; destruct (nr q =? 1)%nat; exact I.
  - vm_compute. auto.
Qed.

(** A value that goes to a single slot of several: isl has no loop for it, and the assignment fails. *)
Definition lonely : rel := Rel 1 2 0 [[1; 0; 0; 0]; [0; 1; 0; 0]; [0; 0; 1; 0]] [].
Definition lonely_points : table := [([0], [0; 0])].
Definition lonely_library : externals := tabulated (fun _ => lonely_points) (fun _ => NUser [EInt 0; EInt 0; EInt 0]).
Theorem C75_single_slot_refuted : exists (v : value Z) r target ex,
  proper v /\ suits v r target /\
  (forall q, well_formed q -> (forall d g, relates q d g <-> placed v r d g) ->
     answers ex q /\ forall schedule, Forall (fun i => (i < nd q)%nat) schedule -> exists t, tree ex q schedule = Some t /\ walks q schedule t) /\
  assign_step 0 (Z.eqb 0) None (fun _ => []) (fun _ => 0) ex v r target [] Auto = None.
Proof.
  exists (Value false [1] (Vector [Elem 7]) Unknown), lonely, [1; 2], lonely_library.
  assert (Rl : forall d g, relates lonely d g <-> In (d, g) lonely_points).
  { intros d g. split.
    - intros (Ld & Lg & l & Ll & (E & _)). cbn in Ld, Lg, Ll. destruct d as [|x [|]]; try discriminate Ld. destruct g as [|y [|z [|]]]; try discriminate Lg. destruct l; [|discriminate Ll].
      inversion E as [|? ? E1 E']; subst. inversion E' as [|? ? E2 E'']; subst. inversion E'' as [|? ? E3 _]; subst. cbn -[Z.mul Z.add] in E1, E2, E3. left. repeat f_equal; lia.
    - intros [[= <- <-]|[]]. split; [reflexivity|]. split; [reflexivity|]. exists []. split; [reflexivity|]. split; repeat constructor. }
  assert (Pl : forall d g, placed (Value false [1] (Vector [Elem 7]) Unknown) lonely d g <-> d = [0] /\ g = [0; 0]).
  { intros d g. split; [intros (H & _); apply Rl in H as [[= <- <-]|[]]; auto|]. intros (-> & ->). split; [apply Rl; now left|]. right. boxes. }
  split; [|split; [|split; [|reflexivity]]].
  - split; [|split; [discriminate|split; discriminate]]. eexists. split; [reflexivity|]. split; [reflexivity|]. repeat constructor; eexists; reflexivity.
  - split; [intros e; cbn; intros [H|H]; repeat (destruct H as [<-|H]; [reflexivity|]); easy|]. split; [reflexivity|]. split; [reflexivity|]. split; [repeat constructor|].
    split; [intros d g H; apply Pl in H as (-> & ->); boxes|]. split; [exists [0], [0; 0]; split; [now apply Pl|reflexivity]|]. cbn. lia.
  - intros q Wq Hq. assert (Pq : forall d g, relates q d g <-> d = [0] /\ g = [0; 0]) by (intros d g; rewrite Hq; apply Pl). destruct (proj2 (Pq [0] [0; 0]) (conj eq_refl eq_refl)) as (N1 & N2 & _). cbn in N1, N2. split.
    + split; [|split; [|split; [|split; [|split; [|split]]]]].
      * intros d g i b H. apply Pq in H as (-> & ->). cbn. split; intros [= <-]; destruct i as [|[|[|]]]; cbn; lia.
      * intros i _. split; discriminate.
      * intros d _. cbn [image lonely_library tabulated lonely_points filter fst]. destruct (list_eq_dec Z.eq_dec [0] d) as [<-|Nd]; cbn [map snd].
        -- split; [repeat constructor; easy|]. intros g. rewrite Pq. cbn. intuition congruence.
        -- split; [constructor|]. intros g. rewrite Pq. cbn. intuition congruence.
      * cbn. split; [repeat constructor; easy|]. intros p. split; [intros [<-|[]]; exists [0], [0; 0]; split; [reflexivity|now apply Pq]|]. intros (d & g & -> & H). apply Pq in H as (-> & ->). now left.
      * discriminate. * discriminate. * exists [0]. now apply Pq.
    + intros s _. eexists. split; [reflexivity|]. split; [repeat constructor|]. exists [[0; 0; 0]]. split; [now apply runs_user|]. split; [|repeat constructor].
      intros p. split; [intros [<-|[]]; exists [0], [0; 0]; split; [reflexivity|now apply Pq]|]. intros (d & g & -> & H). apply Pq in H as (-> & ->). now left.
Qed.
Print Assumptions C75_single_slot_refuted.
