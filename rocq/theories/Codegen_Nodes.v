(** Proofs about the generated loop nests: loops, conditions and blocks. *)
From Coq Require Import String ZArith List Bool Lia.
From Verif Require Import Codegen_Spec Codegen_Model Codegen_Proofs.
Import ListNotations.
Open Scope Z_scope.

(** ** The semantics of the trees *)
Lemma eval_int_some s e z : eval_int s e = Some z -> eval s e = Some (IInt z).
Proof. unfold eval_int. destruct (eval s e) as [[]|]; cbn; congruence. Qed.
Lemma all_length {A} (l : list (option A)) xs : all l = Some xs -> length xs = length l.
Proof. revert xs; induction l as [|[x|] l IH]; intros xs E; cbn [all] in E; try discriminate; [now apply some_inj in E; subst|]. destruct (all l); [|discriminate]. apply some_inj in E. subst. cbn. now rewrite (IH _ eq_refl). Qed.
Lemma eval_ints s args zs : all (map (eval_int s) args) = Some zs -> all (map (eval s) args) = Some (map IInt zs).
Proof.
  revert zs; induction args as [|a args IH]; intros zs E; cbn [map all] in *; [now apply some_inj in E; subst|].
  destruct (eval_int s a) as [z|] eqn:E1; [|discriminate]. destruct (all (map (eval_int s) args)) as [zs'|] eqn:E2; [|discriminate].
  apply some_inj in E. subst zs. rewrite (eval_int_some _ _ _ E1), (IH _ eq_refl). reflexivity.
Qed.

(** a value does not depend on iterators that are not mentioned *)
Lemma eval_fresh names it v s e k : ~ In it names -> kinded names e = Some k -> eval ((it, v) :: s) e = eval s e.
Proof.
  intros N. revert k. induction e as [y|z|o args IH|] using expr_ind2; intros k K.
  - cbn [kinded] in K. destruct (existsb _ names) eqn:X; [|discriminate]. apply existsb_exists in X as (y' & I & Y). apply String.eqb_eq in Y. subst y'.
    cbn [eval find]. destruct (String.eqb_spec y it) as [->|]; [contradiction|reflexivity].
  - reflexivity.
  - apply kinded_op in K as (ks & K1 & _). cbn [eval].
    assert (E : map (eval ((it, v) :: s)) args = map (eval s) args); [|now rewrite E].
    clear -IH K1. revert ks K1. induction IH as [|a args H _ IH]; intros [|k ks] K1; cbn [map] in *; try discriminate; [reflexivity|]. injection K1 as K1 K2.
    f_equal; [now apply (H k)|now apply (IH ks)].
  - reflexivity.
Qed.

(** integers are small *)
Definition small_val (v : ival) : Prop := match v with IInt z => - 2 ^ 30 < z < 2 ^ 30 | IBool _ => True end.
Lemma fold_small g vs : (forall a b, g a b = a \/ g a b = b) -> forall m x, Forall small_val vs -> small_val (IInt m) ->
  fold_left (fun m v => match m, v with Some (IInt m), IInt v => Some (IInt (g m v)) | _, _ => None end) vs (Some (IInt m)) = Some x -> small_val x.
Proof.
  intros G. assert (N : forall vs x, fold_left (fun m v => match m, v with Some (IInt m), IInt v => Some (IInt (g m v)) | _, _ => None end) vs None = Some x -> False).
  { clear. induction vs as [|v vs IH]; intros x E; cbn [fold_left] in E; [discriminate|now apply IH in E]. }
  induction vs as [|v vs IH]; intros m x F S E; cbn [fold_left] in E; [apply some_inj in E; now subst x|].
  inversion F as [|? ? F1 F2]; subst. destruct v as [v|b]; [|now apply N in E]. apply IH in E; auto. cbn in *. destruct (G m v) as [-> | ->]; auto.
Qed.
Lemma apply_small o vs x : Forall small_val vs -> apply o vs = Some x -> small_val x.
Proof.
  intros F E. assert (I : forall z, int z = Some x -> small_val x) by (intros z Ez; apply int_ok in Ez as (-> & Hz); exact Hz).
  destruct o; destruct vs as [|v1 vs]; try discriminate E; cbn [apply] in E; inversion F as [|? ? F1 F2]; subst;
    try (destruct v1 as [a|a]; [|discriminate E]; apply (fold_small Z.max vs) in E; auto; intros; lia);
    try (destruct v1 as [a|a]; [|discriminate E]; apply (fold_small Z.min vs) in E; auto; intros; lia);
    destruct v1 as [a|a]; try discriminate E; destruct vs as [|v2 vs]; try discriminate E; try (now apply I in E); destruct v2 as [b|b]; try discriminate E; destruct vs as [|v3 vs]; try discriminate E;
    try (now apply I in E); try (apply some_inj in E; subst x; exact Logic.I);
    try (match type of E with (if ?c then _ else _) = _ => destruct c; [now apply I in E|discriminate] end);
    destruct vs as [|v4 vs]; try discriminate E; apply some_inj in E; subst x; inversion F2 as [|? ? F3 F4]; subst; inversion F4; subst; destruct a; assumption.
Qed.
Lemma eval_small s e : forall x, eval s e = Some x -> small_val x.
Proof.
  induction e as [y|z|o args IH|] using expr_ind2; intros x E; cbn [eval] in E.
  - destruct (find y s); [|discriminate]. now apply int_ok in E as (-> & H).
  - now apply int_ok in E as (-> & H).
  - destruct (all (map (eval s) args)) as [vs|] eqn:Ea; [|discriminate]. apply apply_small in E; auto.
    clear E. revert vs Ea. induction IH as [|a args H _ IH]; intros vs Ea; cbn [map all] in Ea; [apply some_inj in Ea; subst; constructor|].
    destruct (eval s a) as [v|] eqn:Ev; [|discriminate]. destruct (all (map (eval s) args)) as [l|]; [|discriminate]. apply some_inj in Ea. subst vs. constructor; [now apply H|now apply IH].
  - discriminate.
Qed.

Definition bound_ok (o : op) (v u : Z) : bool := match o with OLe => v <=? u | _ => v <? u end.
(** number of iterations *)
Lemma trips_step lb ub d : 0 < d -> lb < ub -> trips lb ub d = S (trips (lb + d) ub d).
Proof.
  intros D L. unfold trips. replace (ub - lb + d - 1) with (ub - (lb + d) + d - 1 + 1 * d) by lia. rewrite Z.div_add by lia.
  assert (0 <= (ub - (lb + d) + d - 1) / d \/ (ub - (lb + d) + d - 1) / d = 0); [|lia]. left. apply Z.div_pos; lia.
Qed.
Lemma trips_done lb ub d : 0 < d -> ub <= lb -> trips lb ub d = O.
Proof.
  intros D L. unfold trips. assert ((ub - lb + d - 1) / d < 1) by (apply Z.div_lt_upper_bound; lia). lia.
Qed.

Scheme runs_ind3 := Minimality for runs Sort Prop
  with runs_list_ind3 := Minimality for runs_list Sort Prop
  with loops_ind3 := Minimality for loops Sort Prop.

Lemma loops_inv s it o ub d body v tr : (o = OLe \/ o = OLt) -> 0 < d -> forall names, ~ In it names -> kinded names ub = Some KInt ->
  loops s it (EOp o [EId it; ub]) (EInt d) body v tr ->
  exists u, eval s ub = Some (IInt u) /\ - 2 ^ 30 < v < 2 ^ 30 /\
  let u := match o with OLe => u + 1 | _ => u end in
  exists ts, length ts = trips v u d /\ tr = concat ts /\
    forall i, (i < length ts)%nat -> - 2 ^ 30 < v + Z.of_nat i * d < 2 ^ 30 /\ runs ((it, v + Z.of_nat i * d) :: s) body (nth i ts []).
Proof.
  intros Ho D names N K L. remember (EOp o [EId it; ub]) as cond eqn:Ec. remember (EInt d) as inc eqn:Ei.
  induction L as [s it cond inc body v E|s it cond inc body v d' t tr E R Ed L IH]; subst cond inc.
  - cbn [eval map all find] in E. rewrite String.eqb_refl in E. fold (eval ((it, v) :: s) ub) in E. rewrite (eval_fresh names it v s ub KInt N K) in E. unfold int in E. destruct (small v) eqn:Sv; [|discriminate].
    apply small_iff in Sv. destruct (eval s ub) as [[u|b]|] eqn:Eu; [| |discriminate].
    2: { destruct Ho; subst o; cbn in E; discriminate. }
    exists u. split; [reflexivity|]. split; [exact Sv|]. exists []. split; [|split; [reflexivity|cbn; lia]].
    destruct Ho; subst o; cbn [apply] in E; injection E as E; cbn [length]; symmetry; apply trips_done; lia.
  - destruct (IH N eq_refl eq_refl) as (u & Eu & Sv' & ts & Lt & -> & Hr).
    assert (Ed' : d' = d). { unfold eval_int in Ed. cbn [eval] in Ed. unfold int in Ed. destruct (small d); cbn in Ed; congruence. } subst d'.
    cbn [eval map all find] in E. rewrite String.eqb_refl in E. fold (eval ((it, v) :: s) ub) in E. rewrite (eval_fresh names it v s ub KInt N K), Eu in E. unfold int in E. destruct (small v) eqn:Sv; [|discriminate].
    apply small_iff in Sv. exists u. split; [exact Eu|]. split; [exact Sv|]. exists (t :: ts).
    assert (Hlt : v < match o with OLe => u + 1 | _ => u end) by (destruct Ho; subst o; cbn [apply] in E; injection E as E; lia).
    split; [cbn [length]; rewrite Lt; symmetry; now apply trips_step|]. split; [reflexivity|].
    intros [|i] Hi; cbn [length nth] in *.
    + rewrite Z.mul_0_l, Z.add_0_r. auto.
    + replace (v + Z.of_nat (S i) * d) with (v + d + Z.of_nat i * d) by lia. apply Hr. lia.
Qed.

Section Nodes.
Variable A : Type.
Variable f : list Z -> list A -> list A.
Hypothesis f_length : forall zs xs, length (f zs xs) = length xs.
Notation env := (env A).
Notation exec := (exec A f).
Notation execs := (execs A f).
Notation agree := (agree A).

Definition all_steps (tr : list (list Z)) (xs : list A) : list A := fold_left (fun xs zs => f zs xs) tr xs.
Lemma steps_length tr xs : length (all_steps tr xs) = length xs.
Proof. revert xs; induction tr as [|z tr IH]; intros xs; [reflexivity|]. unfold all_steps in *. cbn [fold_left]. now rewrite IH. Qed.
Lemma steps_app a b xs : all_steps (a ++ b) xs = all_steps b (all_steps a xs).
Proof. apply fold_left_app. Qed.

Definition carry (e : env) (vs : list val) (xs : list A) : Prop := Forall2 (fun v x => e (fst v) = Some (DT x)) vs xs.
Definition bounded (n : nat) (vs : list val) : Prop := Forall (fun v => snd v = Data /\ (fst v < n)%nat) vs.
Lemma carry_agree n e e' vs xs : bounded n vs -> carry e vs xs -> agree n e e' -> carry e' vs xs.
Proof. intros B C G. induction C as [|v x vs xs H C IH]; constructor; inversion B as [|? ? (_ & L) B']; subst; [rewrite G by lia; exact H|now apply IH]. Qed.
Lemma bounded_le n m vs : (n <= m)%nat -> bounded n vs -> bounded m vs.
Proof. intros L. apply Forall_impl. intros v (T & H). split; [exact T|lia]. Qed.
Lemma carry_data e n vs xs : bounded n vs -> carry e vs xs -> all (map (data A e) vs) = Some xs.
Proof.
  intros B C. induction C as [|v x vs xs H C IH]; [reflexivity|]. inversion B as [|? ? (T & _) B']; subst. cbn [map all]. unfold data at 1, lookup. rewrite H, T. cbn [has]. now rewrite IH.
Qed.
Lemma fresh_length l n : length (fresh_like l n) = length l.
Proof. revert n; induction l as [|v l IH]; intros n; cbn; [reflexivity|now rewrite IH]. Qed.
Lemma fresh_bounded l n m : bounded m l -> bounded (n + length l) (fresh_like l n).
Proof.
  intros B. revert n; induction B as [|v l (T & _) B IH]; intros n; cbn [fresh_like length]; constructor.
  - split; [exact T|cbn; lia].
  - rewrite Nat.add_succ_r. apply (IH (S n)).
Qed.
Lemma sets_ok l n m xs e : bounded m l -> length xs = length l -> exists e', sets A (fresh_like l n) xs e = Some e' /\ agree n e e' /\ carry e' (fresh_like l n) xs.
Proof.
  intros B. revert n xs e; induction B as [|v l (T & _) B IH]; intros n [|x xs] e L; try discriminate; cbn [fresh_like sets].
  - exists e. split; [reflexivity|]. split; [apply agree_refl|constructor].
  - destruct (set_ok A (n, snd v) (DT x) e) as (e1 & Q1 & G1 & V1); [now rewrite T|]. rewrite Q1. cbn [fst] in *.
    destruct (IH (S n) xs e1) as (e2 & Q2 & G2 & C2); [now injection L|]. exists e2. split; [exact Q2|]. split; [|constructor; [cbn [fst]; rewrite G2 by lia; exact V1|exact C2]].
    exact (agree_trans A n (S n) _ _ _ (Nat.le_succ_diag_r n) G1 G2).
Qed.

(** running the iterations *)
Lemma iterate_ok body step L : forall ts iv xs, length xs = L ->
  (forall i, (i < length ts)%nat -> forall xs, length xs = L -> body (iv + Z.of_nat i * step) xs = Some (all_steps (nth i ts []) xs)) ->
  iterate A body (length ts) iv step xs = Some (all_steps (concat ts) xs).
Proof.
  induction ts as [|t ts IH]; intros iv xs E H; [reflexivity|]. cbn [length iterate concat].
  pose proof (H 0%nat ltac:(cbn; lia) xs E) as H0. rewrite Z.mul_0_l, Z.add_0_r in H0. rewrite H0. cbn [nth]. rewrite (IH (iv + step)).
  - now rewrite steps_app.
  - now rewrite steps_length.
  - intros i Hi ys Ey. replace (iv + step + Z.of_nat i * step) with (iv + Z.of_nat (S i) * step) by lia. apply (H (S i)); cbn [length]; [lia|exact Ey].
Qed.

Definition ordered (rev : bool) (tr : list (list Z)) : list (list Z) := if rev then List.rev tr else tr.
Lemma concat_rev {T} (ts : list (list T)) : concat (map (@List.rev T) (List.rev ts)) = List.rev (concat ts).
Proof. induction ts as [|t ts IH]; [reflexivity|]. cbn [List.rev concat]. rewrite map_app, concat_app, IH. cbn. now rewrite app_nil_r, rev_app_distr. Qed.

(** the iterator of a reversed loop *)
Lemma reversed_ok lb ub step iv n (e : env) l u d k : snd lb = I32 -> snd ub = I32 -> snd step = I32 -> snd iv = I32 ->
  (fst lb < n)%nat -> (fst ub < n)%nat -> (fst step < n)%nat -> (fst iv < n)%nat ->
  e (fst lb) = Some (DI l) -> e (fst ub) = Some (DI u) -> e (fst step) = Some (DI d) -> e (fst iv) = Some (DI (l + Z.of_nat k * d)) ->
  0 < d -> - 2 ^ 30 <= l -> u <= 2 ^ 30 -> (k < trips l u d)%nat -> l + Z.of_nat k * d < 2 ^ 30 ->
  let '(is, v, n') := reversed lb ub step iv n in
  (n <= n')%nat /\ (fst v < n')%nat /\ snd v = I32 /\
  exists e', execs is e = Some e' /\ agree n e e' /\ e' (fst v) = Some (DI (l + Z.of_nat (trips l u d - 1 - k) * d)).
Proof.
  intros Tl Tu Ts Ti Ll Lu Ls Li El Eu Es Ei D Hl Hu Hk Hi.
  assert (T : Z.of_nat (trips l u d) = (u - 1 - l) / d + 1).
  { unfold trips. assert (P : 0 <= (u - l + d - 1) / d). { unfold trips in Hk. lia. } rewrite Z2Nat.id by exact P. replace (u - l + d - 1) with (u - 1 - l + 1 * d) by lia. now rewrite Z.div_add by lia. }
  assert (P1 : l < u). { destruct (Z_lt_ge_dec l u); [easy|]. rewrite trips_done in Hk by lia. lia. }
  set (q := (u - 1 - l) / d) in *. assert (Q : 0 <= q * d <= u - 1 - l). { unfold q. split; [apply Z.mul_nonneg_nonneg; [apply Z.div_pos; lia|lia]|]. rewrite Z.mul_comm. apply Z.mul_div_le. lia. }
  assert (K : 0 <= Z.of_nat k * d <= q * d) by (split; [lia|apply Z.mul_le_mono_nonneg_r; lia]).
  unfold reversed. split; [lia|]. split; [cbn; lia|]. split; [reflexivity|].
  destruct (const_ok A f (n, I32) 1 e) as (e1 & X1 & G1 & V1); [lia|reflexivity|]. cbn [fst] in G1, V1.
  destruct (bin_ok A f subi ub (n, I32) (S n, I32) e1 (DI u) (DI 1) (DI (u - 1))) as (e2 & X2 & G2 & V2); auto; try (now rewrite ?Tu); [rewrite G1 by lia; exact Eu|cbn [arith]; rewrite wrap_small by lia; reflexivity|]. cbn [fst] in G2, V2.
  destruct (bin_ok A f subi (S n, I32) lb (S (S n), I32) e2 (DI (u - 1)) (DI l) (DI (u - 1 - l))) as (e3 & X3 & G3 & V3); auto; try (now rewrite ?Tl); [rewrite G2, G1 by lia; exact El|cbn [arith]; rewrite wrap_small by lia; reflexivity|]. cbn [fst] in G3, V3.
  destruct (bin_ok A f floordivsi (S (S n), I32) step (3 + n, I32)%nat e3 (DI (u - 1 - l)) (DI d) (DI q)) as (e4 & X4 & G4 & V4); auto; try (now rewrite ?Ts); [rewrite G3, G2, G1 by lia; exact Es|cbn [arith]; rewrite divides_pos by lia; reflexivity|]. cbn [fst] in G4, V4.
  destruct (bin_ok A f muli (3 + n, I32)%nat step (4 + n, I32)%nat e4 (DI q) (DI d) (DI (q * d))) as (e5 & X5 & G5 & V5); auto; try (now rewrite ?Ts); [rewrite G4, G3, G2, G1 by lia; exact Es|cbn [arith]; rewrite wrap_small by lia; reflexivity|]. cbn [fst] in G5, V5.
  destruct (bin_ok A f addi lb (4 + n, I32)%nat (5 + n, I32)%nat e5 (DI l) (DI (q * d)) (DI (l + q * d))) as (e6 & X6 & G6 & V6); auto; try (now rewrite ?Tl); [rewrite G5, G4, G3, G2, G1 by lia; exact El|cbn [arith]; rewrite wrap_small by lia; reflexivity|]. cbn [fst] in G6, V6.
  destruct (bin_ok A f subi iv lb (6 + n, I32)%nat e6 (DI (l + Z.of_nat k * d)) (DI l) (DI (Z.of_nat k * d))) as (e7 & X7 & G7 & V7); auto; try (now rewrite ?Tl, ?Ti);
    [rewrite G6, G5, G4, G3, G2, G1 by lia; exact Ei|rewrite G6, G5, G4, G3, G2, G1 by lia; exact El|cbn [arith]; replace (l + Z.of_nat k * d - l) with (Z.of_nat k * d) by lia; rewrite wrap_small by lia; reflexivity|]. cbn [fst] in G7, V7.
  destruct (bin_ok A f subi (5 + n, I32)%nat (6 + n, I32)%nat (7 + n, I32)%nat e7 (DI (l + q * d)) (DI (Z.of_nat k * d)) (DI (l + Z.of_nat (trips l u d - 1 - k) * d))) as (e8 & X8 & G8 & V8); auto;
    [rewrite G7 by (cbn; lia); exact V6| |].
  { cbn [arith]. rewrite wrap_small by lia. do 2 f_equal. replace (Z.of_nat (trips l u d - 1 - k)) with (q - Z.of_nat k) by lia. lia. } cbn [fst] in G8, V8.
  exists e8. cbn [Codegen_Model.execs]. rewrite X1, X2, X3, X4, X5, X6, X7, X8. split; [reflexivity|]. split; [|exact V8].
  intros j Hj. rewrite G8, G7, G6, G5, G4, G3, G2, G1 by lia. reflexivity.
Qed.

Lemma exec_for rs lb ub step inits iv args body ys e :
  exec (For rs lb ub step inits iv args body ys) e =
    let* lb := int32 A e lb in let* ub := int32 A e ub in let* step := int32 A e step in
    if step <=? 0 then None else
    let* xs := all (map (data A e) inits) in
    let* xs := iterate A (fun k xs => let* e := set A iv (DI k) e in let* e := sets A args xs e in let* e := execs body e in all (map (data A e) ys))
            (trips lb ub step) lb step xs in
    sets A rs xs e.
Proof. reflexivity. Qed.
Lemma exec_if rs c thn thn_ys els els_ys e :
  exec (If rs c thn thn_ys els els_ys) e =
    let* c := bool1 A e c in
    let* xs := (if c then (let* e := execs thn e in all (map (data A e) thn_ys)) else (let* e := execs els e in all (map (data A e) els_ys))) in
    sets A rs xs e.
Proof. reflexivity. Qed.

Definition known (names : list string) (ivs : list (string * val)) : Prop := forall y v, find y ivs = Some v -> In y names.
Definition good (names : list string) (s : st) : Prop :=
  scoped names (ivs s) (next s) /\ known names (ivs s) /\ bounded (next s) (iters s) /\ iters s <> [].

Definition visit_good (rev : bool) (t : node) : Prop := forall names s, isl_tree names t -> (rev = true -> unblocked t) -> good names s ->
  exists is ys s', visit rev t s = Some (is, ys, s') /\ ivs s' = ivs s /\ (next s <= next s')%nat /\ length ys = length (iters s) /\ bounded (next s') ys /\
    (exists more, created s' = created s ++ more /\ (is_loop t -> exists rest, more = ys :: rest)) /\
    forall sc env xs tr, holds A (next s) sc (ivs s) env -> carry env (iters s) xs -> runs sc t tr ->
      exists env', execs is env = Some env' /\ agree (next s) env env' /\ carry env' ys (all_steps (ordered rev tr) xs).

Lemma carry_length e vs xs : carry e vs xs -> length xs = length vs.
Proof. induction 1; cbn; congruence. Qed.
Lemma int32_ok e v z : e (fst v) = Some (DI z) -> snd v = I32 -> int32 A e v = Some z.
Proof. intros E T. unfold int32, lookup. rewrite E, T. reflexivity. Qed.

Lemma visit_user rev args : visit_good rev (NUser args).
Proof.
  intros names s W _ (Sc & Kn & B & Ne). cbn [isl_tree] in W.
  assert (Fb : Forall (build_good A f names) args) by (apply Forall_forall; intros e _; apply build_ok).
  assert (K : map (kinded names) args = map Some (map (fun _ => KInt) args)).
  { clear -W. induction W as [|e l H W IH]; [reflexivity|]. cbn [map]. now rewrite H, IH. }
  destruct (builds_good A f names args Fb (ivs s) (next s) _ K Sc) as (is & vs & n & E & L & F & X).
  cbn [visit]. rewrite E. do 3 eexists. split; [reflexivity|]. cbn [ivs next created iters]. rewrite fresh_length. split; [reflexivity|]. split; [lia|]. split; [reflexivity|].
  split; [now apply fresh_bounded with (m := next s)|]. split; [exists []; split; [now rewrite app_nil_r|contradiction]|].
  intros sc env xs tr H C R. inversion R as [? ? zs Ez| | | | |]; subst. pose proof (eval_ints _ _ _ Ez) as Ez'.
  destruct (X sc env _ H Ez') as (e1 & Q1 & G1 & V1 & D1).
  assert (Ei : all (map (int32 A e1) vs) = Some zs).
  { clear -V1 F D1. assert (F' : Forall (fun v => snd v = I32) vs). { clear -F. remember (map (fun _ : expr => KInt) args) as ks eqn:Ek. revert args Ek; induction F as [|v k vs ks (_ & T) F IH]; intros args Ek; [constructor|]. destruct args as [|a args]; [discriminate|]. injection Ek as -> ->. constructor; [exact T|now apply (IH args)]. }
    clear F D1. remember (map IInt zs) as xs eqn:Ex. revert zs Ex F'. induction V1 as [|v x vs xs H V1 IH]; intros [|z zs] Ex F'; try discriminate; [reflexivity|]. injection Ex as -> ->. inversion F'; subst.
    cbn [map all]. rewrite (int32_ok e1 v z); [|exact H|assumption]. now rewrite (IH zs). }
  pose proof (carry_agree _ _ _ _ _ B C G1) as C1.
  destruct (sets_ok (iters s) n (next s) (f zs xs) e1 B) as (e2 & Q2 & G2 & C2); [rewrite f_length; now apply carry_length in C|].
  exists e2. rewrite execs_app, Q1. cbn [Codegen_Model.execs Codegen_Model.exec]. rewrite Ei, (carry_data _ _ _ _ B C1), Q2. split; [reflexivity|].
  split; [exact (agree_trans A _ _ _ _ _ L G1 G2)|]. unfold ordered, all_steps. destruct rev; exact C2.
Qed.

Lemma visit_if rev c a b : visit_good rev a -> (forall n, b = Some n -> visit_good rev n) -> visit_good rev (NIf c a b).
Proof.
  intros Ha Hb names s (Kc & Wa & Wb) U (Sc & Kn & B & Ne).
  destruct (build_ok A f names c (ivs s) (next s) KBool Kc Sc) as (is1 & v & n & E1 & L1 & Lv & Tv & X1).
  cbn [visit]. rewrite E1, Tv. cbn [kty ty_eqb negb].
  destruct (Ha names (mk (ivs s) (iters s) (created s) (n + length (fresh_like (iters s) n)))) as (ia & ya & sa & Ea & Ia & La & Na & Ba & (ma & Ma & _) & Xa); auto.
  { intros R. exact (proj1 (U R)). } { split; [|split; [|split]]; cbn [ivs next iters]; auto; [apply (scoped_le _ _ (next s)); [lia|exact Sc]|apply (bounded_le (next s)); [lia|exact B]]. }
  cbn [ivs next created iters] in *. rewrite Ea.
  assert (Eb : exists ib yb sb, match b with Some e => visit rev e (mk (ivs sa) (iters s) (created sa) (next sa)) | None => Some ([], iters s, sa) end = Some (ib, yb, sb) /\
     ivs sb = ivs s /\ (next sa <= next sb)%nat /\ length yb = length (iters s) /\ bounded (next sb) yb /\ (exists mb, created sb = created sa ++ mb) /\
     forall sc env xs tr, holds A (next sa) sc (ivs s) env -> carry env (iters s) xs -> match b with Some e => runs sc e tr | None => tr = [] end ->
      exists env', execs ib env = Some env' /\ agree (next sa) env env' /\ carry env' yb (all_steps (ordered rev tr) xs)).
  { rewrite fresh_length in *. destruct b as [e|].
    - destruct (Hb e eq_refl names (mk (ivs sa) (iters s) (created sa) (next sa))) as (ib & yb & sb & Eb & Ib & Lb & Nb & Bb & (mb & Mb & _) & Xb); auto.
      { intros R. exact (proj2 (U R)). } { rewrite Ia. split; [|split; [|split]]; cbn [ivs next iters]; auto; [apply (scoped_le _ _ (next s)); [lia|exact Sc]|apply (bounded_le (next s)); [lia|exact B]]. }
      exists ib, yb, sb. cbn [ivs next created iters] in *. rewrite Ia in Ib, Xb. split; [exact Eb|]. split; [exact Ib|]. split; [exact Lb|]. split; [exact Nb|]. split; [exact Bb|]. split; [now exists mb|exact Xb].
    - exists [], (iters s), sa. split; [reflexivity|]. split; [exact Ia|]. split; [lia|]. split; [reflexivity|]. split; [apply (bounded_le (next s)); [lia|exact B]|]. split; [exists []; now rewrite app_nil_r|].
      intros sc env xs tr _ C ->. exists env. split; [reflexivity|]. split; [apply agree_refl|]. now destruct rev. }
  destruct Eb as (ib & yb & sb & Eb & Ib & Lb & Nb & Bb & (mb & Mb) & Xb). rewrite Eb.
  assert (Ny : ya <> []) by (intros ->; destruct (iters s); [easy|discriminate]).
  rewrite Nb, Na, Nat.eqb_refl. rewrite fresh_length in *.
  exists (is1 ++ [If (fresh_like (iters s) n) v ia ya ib yb]), (fresh_like (iters s) n), sb.
  split; [destruct ya; [easy|reflexivity]|]. split; [exact Ib|]. split; [lia|]. split; [apply fresh_length|].
  split; [apply (bounded_le (n + length (iters s))); [lia|]; now apply fresh_bounded with (m := next s)|].
  split; [exists (ma ++ mb); split; [rewrite Mb, Ma; now rewrite app_assoc|contradiction]|].
  intros sc env xs tr H C R.
  assert (G : exists t e1, eval sc c = Some (IBool t) /\ execs is1 env = Some e1 /\ agree (next s) env e1 /\ bool1 A e1 v = Some t /\
    exists e2, (if t then (let* e := execs ia e1 in all (map (data A e) ya)) else (let* e := execs ib e1 in all (map (data A e) yb))) = Some (all_steps (ordered rev tr) xs) /\ e2 = e1).
  { inversion R as [| |? ? ? ? ? Ec Rn|? ? ? ? ? Ec Rn|? ? ? Ec|]; subst; (destruct (X1 sc env _ H Ec) as (e1 & Q1 & G1 & V1 & D1)); cbn [emb] in V1.
    - exists true, e1. split; [exact Ec|]. split; [exact Q1|]. split; [exact G1|]. split; [unfold bool1, lookup; now rewrite V1, Tv|]. exists e1. split; [|reflexivity].
      destruct (Xa sc e1 xs tr) as (e2 & Q2 & G2 & C2); [apply (holds_agree A (next s) _ _ _ env); [lia|exact H|exact G1]|exact (carry_agree _ _ _ _ _ B C G1)|exact Rn|].
      rewrite Q2. exact (carry_data _ _ _ _ Ba C2).
    - exists false, e1. split; [exact Ec|]. split; [exact Q1|]. split; [exact G1|]. split; [unfold bool1, lookup; now rewrite V1, Tv|]. exists e1. split; [|reflexivity].
      destruct (Xb sc e1 xs tr) as (e2 & Q2 & G2 & C2); [apply (holds_agree A (next s) _ _ _ env); [lia|exact H|exact G1]|exact (carry_agree _ _ _ _ _ B C G1)|exact Rn|].
      rewrite Q2. exact (carry_data _ _ _ _ Bb C2).
    - exists false, e1. split; [exact Ec|]. split; [exact Q1|]. split; [exact G1|]. split; [unfold bool1, lookup; now rewrite V1, Tv|]. exists e1. split; [|reflexivity].
      destruct (Xb sc e1 xs []) as (e2 & Q2 & G2 & C2); [apply (holds_agree A (next s) _ _ _ env); [lia|exact H|exact G1]|exact (carry_agree _ _ _ _ _ B C G1)|reflexivity|].
      rewrite Q2. exact (carry_data _ _ _ _ Bb C2). }
  destruct G as (t & e1 & Ec & Q1 & G1 & V1 & e2 & Q2 & ->).
  destruct (sets_ok (iters s) n (next s) (all_steps (ordered rev tr) xs) e1 B) as (e3 & Q3 & G3 & C3); [rewrite steps_length; now apply carry_length in C|].
  exists e3. rewrite execs_app, Q1. cbn [Codegen_Model.execs]. rewrite exec_if, V1, Q2, Q3. split; [reflexivity|]. split; [exact (agree_trans A _ _ _ _ _ L1 G1 G3)|exact C3].
Qed.

Lemma visit_block rev l : Forall (visit_good rev) l -> visit_good rev (NBlock l).
Proof.
  intros F names s W U Gd. cbn [isl_tree] in W. cbn [visit].
  set (go := fix go (l : list node) (results : list val) (s : st) : option (list ins * list val * st) := match l with [] => _ | t :: l => _ end).
  assert (R : forall s, good names s -> exists is ys s', go l (iters s) s = Some (is, ys, s') /\ ivs s' = ivs s /\ (next s <= next s')%nat /\ length ys = length (iters s) /\ bounded (next s') ys /\
    (exists more, created s' = created s ++ more) /\
    forall sc env xs tr, holds A (next s) sc (ivs s) env -> carry env (iters s) xs -> runs_list sc l tr ->
      exists env', execs is env = Some env' /\ agree (next s) env env' /\ carry env' ys (all_steps (ordered rev tr) xs)).
  { clear s Gd. assert (U' : rev = true -> (length l <= 1)%nat /\ Forall unblocked l).
    { intros Rv. specialize (U Rv). cbn [unblocked] in U. destruct l as [|t [|t2 l]]; [|split; [cbn; lia|auto]|contradiction]. split; [cbn; lia|constructor]. }
    clear U. induction F as [|t l Ht F IH]; intros s (Sc & Kn & B & Ne).
    - exists [], (iters s), s. split; [reflexivity|]. split; [reflexivity|]. split; [lia|]. split; [reflexivity|]. split; [exact B|]. split; [exists []; now rewrite app_nil_r|].
      intros sc env xs tr H C R. inversion R; subst. exists env. split; [reflexivity|]. split; [apply agree_refl|]. now destruct rev.
    - destruct W as (W1 & W2). cbn [go].
      destruct (Ht names (mk (ivs s) (iters s) (created s) (next s))) as (i1 & y1 & s1 & E1 & I1 & L1 & N1 & B1 & (m1 & M1 & _) & X1); auto.
      { intros Rv. apply U' in Rv as (_ & Fu). now inversion Fu. } { split; auto. }
      cbn [ivs next created iters] in *. rewrite E1.
      destruct (IH W2) with (s := mk (ivs s1) y1 (created s1) (next s1)) as (i2 & y2 & s2 & E2 & I2 & L2 & N2 & B2 & (m2 & M2) & X2).
      { intros Rv. apply U' in Rv as (Lu & Fu). cbn [length] in Lu. split; [lia|]. now inversion Fu. }
      { rewrite I1. split; [|split; [|split]]; cbn [ivs next iters]; auto; [apply (scoped_le _ _ (next s)); [lia|exact Sc]|]. intros ->. destruct (iters s); [easy|discriminate]. }
      cbn [ivs next created iters] in *.
      assert (E2' : exists s2', go l y1 s1 = Some (i2, y2, s2') /\ ivs s2' = ivs s2 /\ next s2' = next s2 /\ created s2' = created s2).
      { destruct l as [|t2 l2]; [|exists s2; split; [exact E2|auto]]. cbn [go] in E2 |- *. injection E2 as <- <- <-. exists s1. auto. }
      destruct E2' as (s2' & E2' & Z1 & Z2 & Z3). rewrite E2'. rewrite I1 in *.
      exists (i1 ++ i2), y2, s2'. split; [reflexivity|]. split; [congruence|]. rewrite Z2. split; [lia|]. split; [congruence|]. split; [exact B2|].
      split; [exists (m1 ++ m2); rewrite Z3, M2, M1; now rewrite app_assoc|].
      intros sc env xs tr H C R. inversion R as [|? ? ? t1 tr1 R1 R2]; subst.
      destruct (X1 sc env xs t1 H C R1) as (e1 & Q1 & G1 & C1).
      destruct (X2 sc e1 (all_steps (ordered rev t1) xs) tr1) as (e2 & Q2 & G2 & C2); [apply (holds_agree A (next s) _ _ _ env); [lia|exact H|exact G1]|exact C1|exact R2|].
      exists e2. rewrite execs_app, Q1. split; [exact Q2|]. split; [exact (agree_trans A _ _ _ _ _ L1 G1 G2)|].
      replace (all_steps (ordered rev (t1 ++ tr1)) xs) with (all_steps (ordered rev tr1) (all_steps (ordered rev t1) xs)); [exact C2|].
      rewrite <- steps_app. f_equal. unfold ordered. destruct rev; [|reflexivity]. destruct (U' eq_refl) as (Lu & _). cbn [length] in Lu. destruct l; [|cbn in Lu; lia]. inversion R2; subst. now rewrite !app_nil_r. }
  destruct (R s Gd) as (is & ys & s' & E & I & L & N & B & (m & M) & X). exists is, ys, s'. split; [exact E|]. split; [exact I|]. split; [exact L|]. split; [exact N|]. split; [exact B|].
  split; [exists m; split; [exact M|contradiction]|]. intros sc env xs tr H C Rn. inversion Rn; subst. now apply (X sc).
Qed.

Lemma upper_ok o (ub : val) n : (o = OLe \/ o = OLt) -> (fst ub < n)%nat -> snd ub = I32 ->
  exists is v n', match o with
                  | OLe => Some ([Const (n, I32) 1; Bin (S n, I32) addi ub (n, I32)], (S n, I32), S (S n))
                  | OLt => Some ([], ub, n)
                  | _ => None
                  end = Some (is, v, n') /\ (n <= n')%nat /\ (fst v < n')%nat /\ snd v = I32 /\
    forall (e : env) u, e (fst ub) = Some (DI u) -> - 2 ^ 30 < u < 2 ^ 30 ->
      exists e', execs is e = Some e' /\ agree n e e' /\ e' (fst v) = Some (DI (match o with OLe => u + 1 | _ => u end)).
Proof.
  intros [-> | ->] L T.
  - do 3 eexists. split; [reflexivity|]. split; [lia|]. split; [cbn; lia|]. split; [reflexivity|]. intros e u E H.
    destruct (const_ok A f (n, I32) 1 e) as (e1 & Q1 & G1 & V1); [lia|reflexivity|]. cbn [fst] in G1, V1.
    destruct (bin_ok A f addi ub (n, I32) (S n, I32) e1 (DI u) (DI 1) (DI (u + 1))) as (e2 & Q2 & G2 & V2); auto; [rewrite G1 by lia; exact E|now rewrite T|cbn [arith]; rewrite wrap_small by lia; reflexivity|].
    exists e2. cbn [Codegen_Model.execs]. rewrite Q1, Q2. split; [reflexivity|]. split; [|exact V2]. exact (agree_trans A n (S n) _ _ _ (Nat.le_succ_diag_r n) G1 G2).
  - exists [], ub, n. split; [reflexivity|]. split; [lia|]. split; [exact L|]. split; [exact T|]. intros e u E H. exists e. split; [reflexivity|]. split; [apply agree_refl|exact E].
Qed.

Definition iterator (rev : bool) (lb ub step iv : val) (n : nat) : list ins * val * nat := if rev then reversed lb ub step iv n else ([], iv, n).
Lemma iterator_ok rev lb ub step iv n : snd lb = I32 -> snd ub = I32 -> snd step = I32 -> snd iv = I32 ->
  (fst lb < n)%nat -> (fst ub < n)%nat -> (fst step < n)%nat -> (fst iv < n)%nat ->
  exists is v n', iterator rev lb ub step iv n = (is, v, n') /\ (n <= n')%nat /\ (fst v < n')%nat /\ snd v = I32 /\
    forall (e : env) l u d k, e (fst lb) = Some (DI l) -> e (fst ub) = Some (DI u) -> e (fst step) = Some (DI d) -> e (fst iv) = Some (DI (l + Z.of_nat k * d)) ->
      0 < d -> - 2 ^ 30 <= l -> u <= 2 ^ 30 -> (k < trips l u d)%nat -> l + Z.of_nat k * d < 2 ^ 30 ->
      exists e', execs is e = Some e' /\ agree n e e' /\ e' (fst v) = Some (DI (l + Z.of_nat (if rev then trips l u d - 1 - k else k)%nat * d)).
Proof.
  intros Tl Tu Ts Ti Ll Lu Ls Li. unfold iterator. destruct rev.
  - do 3 eexists. split; [reflexivity|]. split; [lia|]. split; [cbn; lia|]. split; [reflexivity|].
    intros e l u d k El Eu Es Ei D Hl Hu Hk Hi.
    pose proof (reversed_ok lb ub step iv n e l u d k Tl Tu Ts Ti Ll Lu Ls Li El Eu Es Ei D Hl Hu Hk Hi) as R. unfold reversed in R. destruct R as (_ & _ & _ & R). exact R.
  - exists [], iv, n. split; [reflexivity|]. split; [lia|]. split; [exact Li|]. split; [exact Ti|]. intros e l u d k El Eu Es Ei D Hl Hu Hk Hi. exists e. split; [reflexivity|]. split; [apply agree_refl|exact Ei].
Qed.

Lemma find_insert it v ivs : find it ivs = None -> insert it v ivs = (it, v) :: ivs.
Proof. intros E. unfold insert. now rewrite E. Qed.

Lemma visit_for rev it init cond inc body : visit_good rev body -> visit_good rev (NFor it init cond inc body).
Proof.
  intros Hb names s (Nit & Ki & (o & upper & Ho & -> & Ku) & (d & Hd & Sd & ->) & Wb) U (Sc & Kn & B & Ne).
  destruct (build_ok A f names init (ivs s) (next s) KInt Ki Sc) as (is1 & lb & n1 & E1 & L1 & Lv1 & T1 & X1).
  destruct (build_ok A f names upper (ivs s) n1 KInt Ku (scoped_le _ _ _ _ L1 Sc)) as (is2 & ub0 & n2 & E2 & L2 & Lv2 & T2 & X2).
  destruct (upper_ok o ub0 n2 Ho Lv2 T2) as (is3 & ub & n3 & E3 & L3 & Lv3 & T3 & X3).
  cbn [visit]. rewrite E1, E2, E3. cbn [build].
  set (step := (n3, I32)). set (m := S n3). set (rs := fresh_like (iters s) m). assert (Lr : length rs = length (iters s)) by apply fresh_length.
  set (iv := ((m + length rs)%nat, snd lb)). set (args := fresh_like (iters s) (S (m + length rs))). assert (La : length args = length (iters s)) by apply fresh_length.
  set (n4 := (S (m + length rs) + length args)%nat).
  match goal with |- context [if rev then ?a else ?b] => change (if rev then a else b) with (iterator rev lb ub step iv n4) end.
  destruct (iterator_ok rev lb ub step iv n4) as (is5 & actual & n5 & E5 & L5 & Lv5 & T5 & X5); try (cbn; unfold n4, m; lia); auto.
  rewrite E5.
  assert (Fi : find it (ivs s) = None) by (destruct (find it (ivs s)) eqn:Ef; [|reflexivity]; apply Kn in Ef; contradiction).
  rewrite (find_insert _ _ _ Fi).
  assert (Ba : bounded n5 args). { apply (bounded_le n4); [lia|]. unfold n4. rewrite La. now apply fresh_bounded with (m := next s). }
  destruct (Hb (it :: names) (mk ((it, actual) :: ivs s) args (created s ++ [rs]) n5)) as (is6 & ys & s6 & E6 & I6 & L6 & N6 & B6 & (m6 & M6 & _) & X6); auto.
  { split; [|split; [|split]]; cbn [ivs next iters]; auto.
    - intros y [<- |Iy]; cbn [find].
      + rewrite String.eqb_refl. exists (fst actual). split; [rewrite <- T5; now destruct actual|exact Lv5].
      + destruct (String.eqb_spec y it) as [->|]; [contradiction|]. destruct (Sc y Iy) as (i & Ei & Hi). exists i. split; [exact Ei|]. unfold n4, m in *. lia.
    - intros y w. cbn [find]. destruct (String.eqb_spec y it) as [->|]; [now left|]. intros Ew. right. now apply Kn in Ew.
    - intros Ea. rewrite Ea in La. destruct (iters s); [easy|discriminate]. }
  cbn [ivs next created iters] in *. rewrite E6.
  assert (Ny : ys <> []). { intros ->. rewrite La in N6. destruct (iters s); [easy|discriminate]. }
  exists (is1 ++ is2 ++ is3 ++ [Const step d] ++ [For rs lb ub step (iters s) iv args (is5 ++ is6) ys]), rs, (mk (ivs s) (iters s6) (created s6) (next s6)).
  split; [destruct ys; [easy|reflexivity]|]. cbn [ivs next created iters]. split; [reflexivity|]. split; [unfold n4, m in *; lia|]. split; [exact Lr|].
  split; [apply (bounded_le (m + length (iters s))); [unfold n4 in *; lia|]; now apply fresh_bounded with (m := next s)|].
  split; [exists ([rs] ++ m6); split; [rewrite M6; now rewrite app_assoc|intros _; now exists m6]|].
  intros sc env xs tr H C R. inversion R as [| | | | |? ? ? ? ? ? v ? Ev Lp]; subst.
  destruct (loops_inv sc it o upper d body v tr Ho Hd names Nit Ku Lp) as (u & Eu & Sv & ts & Lt & -> & Hr). set (u' := match o with OLe => u + 1 | _ => u end) in *.
  assert (Su : - 2 ^ 30 < u < 2 ^ 30).
  { exact (eval_small _ _ _ Eu). }
  destruct (X1 sc env (IInt v) H (eval_int_some _ _ _ Ev)) as (e1 & Q1 & G1 & V1 & _). cbn [emb] in V1.
  destruct (X2 sc e1 (IInt u)) as (e2 & Q2 & G2 & V2 & _); [apply (holds_agree A (next s) _ _ _ env); auto|exact Eu|]. cbn [emb] in V2.
  destruct (X3 e2 u V2 Su) as (e3 & Q3 & G3 & V3). fold u' in V3.
  destruct (const_ok A f step d e3) as (e4 & Q4 & G4 & V4); [apply small_iff in Sd; lia|reflexivity|]. cbn [step fst] in G4, V4.
  assert (G14 : agree (next s) env e4). { intros k Hk. rewrite G4, G3, G2, G1 by lia. reflexivity. }
  assert (Vl : e4 (fst lb) = Some (DI v)) by (rewrite G4, G3, G2 by lia; exact V1).
  assert (Vu : e4 (fst ub) = Some (DI u')) by (rewrite G4 by lia; exact V3).
  assert (C4 : carry e4 (iters s) xs) by exact (carry_agree _ _ _ _ _ B C G14).
  set (K := length ts).
  set (ts' := if rev then map (@List.rev (list Z)) (List.rev ts) else ts).
  assert (Lts : length ts' = K) by (unfold ts'; destruct rev; [now rewrite map_length, rev_length|reflexivity]).
  assert (Ets : concat ts' = ordered rev (concat ts)) by (unfold ts', ordered; destruct rev; [apply concat_rev|reflexivity]).
  destruct (sets_ok (iters s) m (next s) (all_steps (ordered rev (concat ts)) xs) e4 B) as (e5 & Q5 & G5 & C5); [rewrite steps_length; now apply carry_length in C|].
  exists e5. rewrite !execs_app, Q1, execs_app, Q2, execs_app, Q3. cbn [app Codegen_Model.execs]. rewrite Q4, exec_for.
  rewrite (int32_ok e4 lb v Vl T1), (int32_ok e4 ub u' Vu T3), (int32_ok e4 step d V4 eq_refl). destruct (Z.leb_spec d 0); [lia|].
  rewrite (carry_data _ _ _ _ B C4).
  assert (It : iterate A (fun k xs => let* e := set A iv (DI k) e4 in let* e := sets A args xs e in let* e := execs (is5 ++ is6) e in all (map (data A e) ys)) (trips v u' d) v d xs
     = Some (all_steps (concat ts') xs)).
  { rewrite <- Lt. fold K. rewrite <- Lts. apply iterate_ok with (L := length (iters s)); [now apply carry_length in C|].
    intros i Hi xs' Lx. rewrite Lts in Hi.
    destruct (set_ok A iv (DI (v + Z.of_nat i * d)) e4) as (f1 & P1 & J1 & W1); [cbn [iv snd]; now rewrite T1|]. rewrite P1. cbn [iv fst] in J1, W1.
    destruct (sets_ok (iters s) (S (m + length rs)) (next s) xs' f1 B Lx) as (f2 & P2 & J2 & W2). fold args in P2, W2. rewrite P2.
    assert (J12 : agree (m + length rs) e4 f2). { apply (agree_trans A _ (S (m + length rs)) _ f1); [lia|exact J1|exact J2]. }
    set (idx := (if rev then trips v u' d - 1 - i else i)%nat). assert (Hidx : (idx < K)%nat) by (unfold idx; destruct rev; unfold K in *; lia).
    destruct (X5 f2 v u' d i) as (f3 & P3 & J3 & W3); auto; try lia.
    { rewrite J12 by (unfold m; lia). exact Vl. } { rewrite J12 by (unfold m; lia). exact Vu. } { rewrite J12 by (cbn; unfold m; lia). exact V4. } { cbn [iv fst]. rewrite J2 by lia. exact W1. }
    { unfold u'. destruct o; lia. } { exact (proj2 (proj1 (Hr i Hi))). }
    fold idx in W3. destruct (Hr idx Hidx) as (Sidx & Ridx).
    destruct (X6 ((it, v + Z.of_nat idx * d) :: sc) f3 xs' (nth idx ts [])) as (f4 & P4 & J4 & W4).
    { intros y z. cbn [find]. destruct (String.eqb_spec y it) as [->|Ny'].
      - intros [= <-]. exists (fst actual). split; [rewrite <- T5; now destruct actual|]. split; [exact Lv5|exact W3].
      - intros Ez. destruct (H y z Ez) as (j & Ej & Lj & Vj). exists j. split; [exact Ej|]. split; [unfold n4, m in *; lia|].
        rewrite J3 by (unfold n4, m in *; lia). rewrite J12 by (unfold m; lia). rewrite G14 by lia. exact Vj. }
    { apply (carry_agree n4 f2); [unfold n4; rewrite La; now apply fresh_bounded with (m := next s)|exact W2|exact J3]. }
    { exact Ridx. }
    rewrite execs_app, P3, P4. rewrite (carry_data _ _ _ _ B6 W4). do 2 f_equal.
    unfold ts', ordered, idx in *. destruct rev; [|reflexivity].
    symmetry. etransitivity; [apply (nth_indep _ [] (List.rev [])); rewrite map_length, rev_length; exact Hi|]. rewrite map_nth, rev_nth by exact Hi. do 2 f_equal. unfold K in *. lia. }
  fold rs in Q5, C5. rewrite It, Ets, Q5. split; [reflexivity|]. split; [|exact C5]. apply (agree_trans A _ m _ e4); [unfold m; lia|exact G14|exact G5].
Qed.

Lemma visit_ok rev t : visit_good rev t.
Proof.
  induction t as [it init cond inc body IH|c a b Ha Hb|l F|args|] using node_ind2.
  - now apply visit_for.
  - now apply visit_if.
  - now apply visit_block.
  - apply visit_user.
  - intros names s [].
Qed.
End Nodes.
