(** Proofs about the generated loop nests. *)
From Coq Require Import String ZArith List Bool Lia.
From Verif Require Import Codegen_Spec Codegen_Model.
Import ListNotations.
Open Scope Z_scope.

Arguments DB {A}. Arguments DI {A}. Arguments DT {A}.

Fixpoint expr_ind2 (P : expr -> Prop) (Hi : forall n, P (EId n)) (Hz : forall z, P (EInt z))
  (Ho : forall o args, Forall P args -> P (EOp o args)) (He : P EError) (e : expr) : P e :=
  match e with
  | EId n => Hi n
  | EInt z => Hz z
  | EOp o args => Ho o args ((fix go l : Forall P l := match l with [] => Forall_nil _ | e :: l => Forall_cons _ (expr_ind2 P Hi Hz Ho He e) (go l) end) args)
  | EError => He
  end.
Fixpoint node_ind2 (P : node -> Prop) (Hf : forall it a b c n, P n -> P (NFor it a b c n))
  (Hi : forall c a b, P a -> (forall n, b = Some n -> P n) -> P (NIf c a b)) (Hb : forall l, Forall P l -> P (NBlock l))
  (Hu : forall a, P (NUser a)) (Ho : P NOther) (n : node) : P n :=
  match n with
  | NFor it a b c n => Hf it a b c n (node_ind2 P Hf Hi Hb Hu Ho n)
  | NIf c a b => Hi c a b (node_ind2 P Hf Hi Hb Hu Ho a)
      (match b as b return forall n, b = Some n -> P n with
       | Some m => fun n E => match E in _ = o return match o with Some n => P n | None => True end with eq_refl => node_ind2 P Hf Hi Hb Hu Ho m end
       | None => fun n E => match E in _ = o return match o with Some n => P n | None => True end with eq_refl => I end
       end)
  | NBlock l => Hb l ((fix go l : Forall P l := match l with [] => Forall_nil _ | e :: l => Forall_cons _ (node_ind2 P Hf Hi Hb Hu Ho e) (go l) end) l)
  | NUser a => Hu a
  | NOther => Ho
  end.

Lemma some_inj {T} (a b : T) : Some a = Some b -> a = b.
Proof. congruence. Qed.

Lemma small_iff z : small z = true <-> - 2 ^ 30 < z < 2 ^ 30.
Proof. unfold small. rewrite andb_true_iff, !Z.ltb_lt. reflexivity. Qed.
Lemma int_ok z x : int z = Some x -> x = IInt z /\ - 2 ^ 30 < z < 2 ^ 30.
Proof. unfold int. destruct (small z) eqn:E; [|discriminate]. intros [= <-]. apply small_iff in E. auto. Qed.
Lemma wrap_small z : - 2 ^ 31 <= z < 2 ^ 31 -> wrap z = z.
Proof. intros H. unfold wrap. rewrite Z.mod_small; lia. Qed.
Lemma wrap_sub a b : wrap (a - wrap b) = wrap (a - b).
Proof.
  unfold wrap. f_equal. replace (a - ((b + 2 ^ 31) mod 2 ^ 32 - 2 ^ 31) + 2 ^ 31) with (a + 2 ^ 32 - (b + 2 ^ 31) mod 2 ^ 32) by lia.
  rewrite Zminus_mod_idemp_r. replace (a + 2 ^ 32 - (b + 2 ^ 31)) with (a - b + 2 ^ 31) by lia. reflexivity.
Qed.

Section Proofs.
Variable A : Type.
Variable f : list Z -> list A -> list A.
Notation env := (env A).
Notation exec := (exec A f).
Notation execs := (execs A f).

Definition agree (n : nat) (e e' : env) : Prop := forall k, (k < n)%nat -> e' k = e k.
Lemma agree_refl n e : agree n e e.
Proof. now intros k. Qed.
Lemma agree_trans n m e1 e2 e3 : (n <= m)%nat -> agree n e1 e2 -> agree m e2 e3 -> agree n e1 e3.
Proof. intros L H1 H2 k K. rewrite H2 by lia. now apply H1. Qed.
Lemma agree_le n m e1 e2 : (n <= m)%nat -> agree m e1 e2 -> agree n e1 e2.
Proof. intros L H k K. apply H. lia. Qed.

Lemma execs_app a b e : execs (a ++ b) e = let* e := execs a e in execs b e.
Proof. revert e; induction a as [|i a IH]; intros e; cbn [app Codegen_Model.execs]; [reflexivity|]. destruct (exec i e); [apply IH|reflexivity]. Qed.

Definition emb (v : ival) : datum A := match v with IInt z => DI z | IBool b => DB b end.
Definition kty (k : kind) : ty := match k with KInt => I32 | KBool => I1 end.
Lemma has_emb x : has A (emb x) (kty (kind_of x)) = true.
Proof. now destruct x. Qed.
Lemma set_ok r d e : has A d (snd r) = true -> exists e', set A r d e = Some e' /\ agree (fst r) e e' /\ e' (fst r) = Some d.
Proof.
  intros H. unfold set. rewrite H. eexists; split; [reflexivity|]. split; [|now rewrite Nat.eqb_refl].
  intros k K. destruct (Nat.eqb_spec k (fst r)); [lia|reflexivity].
Qed.
Lemma lookup_ok e v d : e (fst v) = Some d -> has A d (snd v) = true -> lookup A e v = Some d.
Proof. intros E H. unfold lookup. now rewrite E, H. Qed.

(** ** Expressions *)
Definition scoped (names : list string) (ivs : list (string * val)) (n : nat) : Prop :=
  forall y, In y names -> exists i, find y ivs = Some (i, I32) /\ (i < n)%nat.
Definition holds (n : nat) (s : scope) (ivs : list (string * val)) (e : env) : Prop :=
  forall y z, find y s = Some z -> exists i, find y ivs = Some (i, I32) /\ (i < n)%nat /\ e i = Some (DI z).
Lemma holds_agree n m s ivs e e' : (n <= m)%nat -> holds n s ivs e -> agree n e e' -> holds m s ivs e'.
Proof. intros L H G y z E. destruct (H y z E) as (i & F & I & V). exists i. split; [exact F|]. split; [lia|]. rewrite G by lia. exact V. Qed.
Lemma scoped_le names ivs n m : (n <= m)%nat -> scoped names ivs n -> scoped names ivs m.
Proof. intros L H y I. destruct (H y I) as (i & E & K). exists i. split; [exact E|lia]. Qed.

Definition build_good (names : list string) (e : expr) : Prop := forall ivs n k,
  kinded names e = Some k -> scoped names ivs n ->
  exists is v n', build ivs e n = Some (is, v, n') /\ (n <= n')%nat /\ (fst v < n')%nat /\ snd v = kty k /\
    forall s env x, holds n s ivs env -> eval s e = Some x ->
      exists env', execs is env = Some env' /\ agree n env env' /\ env' (fst v) = Some (emb x) /\ kind_of x = k.

Lemma builds_good names args : Forall (build_good names) args -> forall ivs n ks,
  map (kinded names) args = map Some ks -> scoped names ivs n ->
  exists is vs n', builds ivs args n = Some (is, vs, n') /\ (n <= n')%nat /\ Forall2 (fun v k => (fst v < n')%nat /\ snd v = kty k) vs ks /\
    forall s env xs, holds n s ivs env -> all (map (eval s) args) = Some xs ->
      exists env', execs is env = Some env' /\ agree n env env' /\ Forall2 (fun v x => env' (fst v) = Some (emb x)) vs xs /\ map kind_of xs = ks.
Proof.
  induction 1 as [|a args Ha _ IH]; intros ivs n ks K Sc.
  - destruct ks; [|discriminate]. exists [], [], n. cbn [builds]. split; [reflexivity|]. split; [lia|]. split; [constructor|].
    intros s env xs H E. cbn in E. apply some_inj in E. subst xs. exists env. split; [reflexivity|]. split; [apply agree_refl|]. split; [constructor|reflexivity].
  - destruct ks as [|k ks]; [discriminate|]. cbn [map] in K. injection K as K1 K2.
    destruct (Ha ivs n k K1 Sc) as (is1 & v & n1 & B1 & L1 & V1 & T1 & X1).
    destruct (IH ivs n1 ks K2 (scoped_le _ _ _ _ L1 Sc)) as (is2 & vs & n2 & B2 & L2 & V2 & X2).
    exists (is1 ++ is2), (v :: vs), n2. cbn [builds]. rewrite B1, B2. split; [reflexivity|]. split; [lia|]. split; [constructor; [split; [lia|exact T1]|exact V2]|].
    intros s env xs H E. cbn [map all] in E. destruct (eval s a) as [x|] eqn:E1; [|discriminate]. destruct (all (map (eval s) args)) as [xs'|] eqn:E2; [|discriminate].
    apply some_inj in E. subst xs. destruct (X1 s env x H E1) as (e1 & Q1 & G1 & W1 & D1).
    destruct (X2 s e1 xs') as (e2 & Q2 & G2 & W2 & D2); [exact (holds_agree _ _ _ _ _ _ L1 H G1)|exact E2|].
    exists e2. rewrite execs_app, Q1. split; [exact Q2|]. split; [exact (agree_trans _ _ _ _ _ L1 G1 G2)|]. split; [|cbn; now rewrite D1, D2].
    constructor; [|exact W2]. rewrite G2 by lia. exact W1.
Qed.

(** one binary operation *)
Lemma bin_ok m a b r env x y d : env (fst a) = Some x -> has A x (snd a) = true -> env (fst b) = Some y -> has A y (snd b) = true ->
  arith A m x y = Some d -> has A d (snd r) = true ->
  exists env', exec (Bin r m a b) env = Some env' /\ agree (fst r) env env' /\ env' (fst r) = Some d.
Proof.
  intros Ea Ha Eb Hb E Hd. cbn [Codegen_Model.exec]. rewrite (lookup_ok _ _ _ Ea Ha), (lookup_ok _ _ _ Eb Hb), E.
  now apply set_ok.
Qed.

Lemma reduce_ok (m : mop) (g : Z -> Z -> Z) : (forall a b, arith A m (DI a) (DI b) = Some (DI (g a b))) ->
  forall vs acc n, snd acc = I32 -> Forall (fun v => snd v = I32) vs -> (fst acc < n)%nat -> Forall (fun v => (fst v < n)%nat) vs ->
  exists is v n', reduce m acc vs n = (is, v, n') /\ (n <= n')%nat /\ (fst v < n')%nat /\ snd v = I32 /\
    forall env z zs, env (fst acc) = Some (DI z) -> Forall2 (fun v z => env (fst v) = Some (DI z)) vs zs ->
      exists env', execs is env = Some env' /\ agree n env env' /\ env' (fst v) = Some (DI (fold_left g zs z)).
Proof.
  intros Hm. induction vs as [|v vs IH]; intros acc n Ta Tv La Lv.
  - exists [], acc, n. split; [reflexivity|]. split; [lia|]. split; [exact La|]. split; [exact Ta|]. intros env z zs E F. inversion F; subst.
    exists env. split; [reflexivity|]. split; [apply agree_refl|exact E].
  - inversion Tv as [|? ? Tv1 Tv2]; subst. inversion Lv as [|? ? Lv1 Lv2]; subst. cbn [reduce]. rewrite Ta.
    destruct (IH (n, I32) (S n)) as (is & w & n' & E & L & Lw & Tw & X); [reflexivity|exact Tv2|cbn; lia|eapply Forall_impl; [|exact Lv2]; cbn; lia|].
    rewrite E. exists (Bin (n, I32) m acc v :: is), w, n'. split; [reflexivity|]. split; [lia|]. split; [exact Lw|]. split; [exact Tw|].
    intros env z zs Ez F. inversion F as [|? z1 ? zs1 F1 F2]; subst.
    destruct (bin_ok m acc v (n, I32) env (DI z) (DI z1) (DI (g z z1))) as (e1 & Q1 & G1 & V1); auto; try (now rewrite ?Ta, ?Tv1).
    cbn [fst] in G1, V1. destruct (X e1 (g z z1) zs1) as (e2 & Q2 & G2 & V2); [exact V1| |].
    { clear -F2 Lv2 G1. induction F2 as [|a b l l' H F2 IH2]; constructor; [inversion Lv2; subst; rewrite G1 by lia; exact H|]. apply IH2. now inversion Lv2. }
    exists e2. cbn [Codegen_Model.execs]. rewrite Q1. split; [exact Q2|]. split; [|exact V2]. exact (agree_trans n (S n) _ _ _ (Nat.le_succ_diag_r n) G1 G2).
Qed.

Definition op_kind (o : op) (ks : list kind) : option kind :=
  match o, ks with
  | (OAdd | OSub | OMul | ODiv | OFdivQ | OPdivQ | OPdivR | OZdivR), [KInt; KInt] => Some KInt
  | OMinus, [KInt] => Some KInt
  | (OAnd | OOr), [KBool; KBool] => Some KBool
  | OEq, [_; _] => Some KBool
  | (OLt | OLe | OGt | OGe), [KInt; KInt] => Some KBool
  | OSelect, [KBool; KInt; KInt] => Some KInt
  | OSelect, [KBool; KBool; KBool] => Some KBool
  | (OMax | OMin), KInt :: KInt :: ks => if forallb (fun k => match k with KInt => true | _ => false end) ks then Some KInt else None
  | _, _ => None
  end.
Definition op_list (o : op) (l : list (option kind)) : option kind :=
  match o, l with
  | (OAdd | OSub | OMul | ODiv | OFdivQ | OPdivQ | OPdivR | OZdivR), [Some KInt; Some KInt] => Some KInt
  | OMinus, [Some KInt] => Some KInt
  | (OAnd | OOr), [Some KBool; Some KBool] => Some KBool
  | OEq, [Some _; Some _] => Some KBool
  | (OLt | OLe | OGt | OGe), [Some KInt; Some KInt] => Some KBool
  | OSelect, [Some KBool; Some KInt; Some KInt] => Some KInt
  | OSelect, [Some KBool; Some KBool; Some KBool] => Some KBool
  | _, _ => None
  end.
Lemma kinded_op names o args k : kinded names (EOp o args) = Some k -> exists ks, map (kinded names) args = map Some ks /\ op_kind o ks = Some k.
Proof.
  cbn [kinded]. remember (map (kinded names) args) as l eqn:El. clear El. intros H.
  assert (Q : o = OMax \/ o = OMin \/ (o <> OMax /\ o <> OMin)) by (destruct o; auto; right; right; split; discriminate).
  destruct Q as [Q|[Q|Q]].
  1,2: subst o; destruct l as [|[[]|] [|[[]|] l]]; try discriminate;
    destruct (forallb _ l) eqn:F; [|discriminate];
    assert (E : exists ks, l = map Some ks /\ forallb (fun k => match k with KInt => true | _ => false end) ks = true)
      by (clear H; induction l as [|[[]|] l IH]; try discriminate; [exists []; auto|]; destruct (IH F) as (ks & -> & E); exists (KInt :: ks); auto);
    destruct E as (ks & -> & E); exists (KInt :: KInt :: ks); split; [reflexivity|]; cbn [op_kind]; now rewrite E.
  destruct Q as (Q1 & Q2).
  assert (X : op_list o l = Some k) by (destruct o; try exact H; exfalso; auto). clear H.
  destruct l as [|[k1|] l]; [destruct o; discriminate X| |destruct o; discriminate X].
  destruct l as [|[k2|] l]; [|
  |destruct o, k1; discriminate X].
  - exists [k1]. split; [reflexivity|]. destruct o, k1; solve [discriminate X|exact X].
  - destruct l as [|[k3|] l]; [| |destruct o, k1, k2; discriminate X].
    + exists [k1; k2]. split; [reflexivity|]. destruct o, k1, k2; solve [discriminate X|exact X|exfalso; auto].
    + destruct l as [|k4 l]; [|destruct o, k1, k2, k3; discriminate X].
      exists [k1; k2; k3]. split; [reflexivity|]. destruct o, k1, k2, k3; solve [discriminate X|exact X|exfalso; auto].
Qed.

Lemma fold_max zs : forall a x, fold_left (fun m v => match m, v with Some (IInt m), IInt v => Some (IInt (Z.max m v)) | _, _ => None end) (map IInt zs) (Some (IInt a)) = Some x ->
  x = IInt (fold_left Z.max zs a).
Proof. induction zs as [|z zs IH]; intros a x; cbn [map fold_left]; [congruence|apply IH]. Qed.
Lemma fold_min zs : forall a x, fold_left (fun m v => match m, v with Some (IInt m), IInt v => Some (IInt (Z.min m v)) | _, _ => None end) (map IInt zs) (Some (IInt a)) = Some x ->
  x = IInt (fold_left Z.min zs a).
Proof. induction zs as [|z zs IH]; intros a x; cbn [map fold_left]; [congruence|apply IH]. Qed.

Definition op_good (o : op) (ks : list kind) (k : kind) : Prop := forall vs n,
  Forall2 (fun v k => (fst v < n)%nat /\ snd v = kty k) vs ks ->
  exists is v n', build_op o vs n = Some (is, v, n') /\ (n <= n')%nat /\ (fst v < n')%nat /\ snd v = kty k /\
    forall env xs x, Forall2 (fun v x => env (fst v) = Some (emb x)) vs xs -> map kind_of xs = ks -> apply o xs = Some x ->
      exists env', execs is env = Some env' /\ agree n env env' /\ env' (fst v) = Some (emb x) /\ kind_of x = k.

Lemma op_good_bin o m k : binary_op o = Some m ->
  (forall x y z, kind_of x = k -> kind_of y = k -> apply o [x; y] = Some z -> arith A m (emb x) (emb y) = Some (emb z) /\ kind_of z = k) ->
  op_good o [k; k] k.
Proof.
  intros Em H vs n F. inversion F as [|a ? vs1 ? (La & Ta) F1]; subst. inversion F1 as [|b ? vs2 ? (Lb & Tb) F2]; subst. inversion F2; subst.
  unfold build_op. rewrite Em. do 3 eexists. split; [reflexivity|]. split; [lia|]. split; [cbn; lia|]. split; [exact Ta|].
  intros env xs x G K E. inversion G as [|? x1 ? xs1 G1 G2]; subst. inversion G2 as [|? x2 ? xs2 G3 G4]; subst. inversion G4; subst.
  cbn [map] in K. injection K as K1 K2. destruct (H x1 x2 x K1 K2 E) as (E1 & E2).
  destruct (bin_ok m a b (n, snd a) env (emb x1) (emb x2) (emb x)) as (e1 & Q & G5 & V); auto.
  - rewrite Ta, <- K1. apply has_emb.
  - rewrite Tb, <- K2. apply has_emb.
  - cbn [snd]. rewrite Ta, <- E2. apply has_emb.
  - exists e1. cbn [Codegen_Model.execs]. rewrite Q. split; [reflexivity|]. split; [exact G5|]. split; [exact V|exact E2].
Qed.

Lemma kind_int x : kind_of x = KInt -> exists z, x = IInt z.
Proof. destruct x; [eauto|discriminate]. Qed.
Lemma kind_bool x : kind_of x = KBool -> exists z, x = IBool z.
Proof. destruct x; [discriminate|eauto]. Qed.

Ltac ints := repeat match goal with H : kind_of ?x = KInt |- _ => apply kind_int in H as (? & ->) | H : kind_of ?x = KBool |- _ => apply kind_bool in H as (? & ->) end.
Ltac fin E := apply int_ok in E as (-> & ?); cbn [emb kind_of arith]; split; [|reflexivity].

Lemma divides_pos a b : 0 < b -> divides_ok a b = true.
Proof. intros H. unfold divides_ok. destruct (Z.eqb_spec b 0); [lia|]. destruct (Z.eqb_spec b (-1)); [lia|]. now rewrite andb_false_r. Qed.

Lemma op_good_add : op_good OAdd [KInt; KInt] KInt.
Proof. apply (op_good_bin OAdd addi); [reflexivity|]. intros x y z X Y E. ints. cbn in E. fin E. rewrite wrap_small by lia. reflexivity. Qed.
Lemma op_good_sub : op_good OSub [KInt; KInt] KInt.
Proof. apply (op_good_bin OSub subi); [reflexivity|]. intros x y z X Y E. ints. cbn in E. fin E. rewrite wrap_small by lia. reflexivity. Qed.
Lemma op_good_mul : op_good OMul [KInt; KInt] KInt.
Proof. apply (op_good_bin OMul muli); [reflexivity|]. intros x y z X Y E. ints. cbn [apply] in E. fin E. rewrite wrap_small by lia. reflexivity. Qed.
Lemma op_good_div : op_good ODiv [KInt; KInt] KInt.
Proof.
  apply (op_good_bin ODiv divsi); [reflexivity|]. intros x y z X Y E. apply kind_int in X as (a & ->). apply kind_int in Y as (b & ->). cbn [apply] in E.
  destruct (Z.ltb_spec 0 b); [|discriminate]. destruct (Z.eqb_spec (a mod b) 0) as [D|]; [|discriminate]. cbn [andb] in E. fin E.
  rewrite divides_pos by lia. do 2 f_equal. apply Z.div_exact in D; [|lia]. rewrite D at 1. rewrite Z.mul_comm, Z.quot_mul by lia. reflexivity.
Qed.
Lemma op_good_fdiv : op_good OFdivQ [KInt; KInt] KInt.
Proof.
  apply (op_good_bin OFdivQ floordivsi); [reflexivity|]. intros x y z X Y E. apply kind_int in X as (a & ->). apply kind_int in Y as (b & ->). cbn [apply] in E.
  destruct (Z.ltb_spec 0 b); [|discriminate]. fin E. now rewrite divides_pos by lia.
Qed.
Lemma op_good_pdiv : op_good OPdivQ [KInt; KInt] KInt.
Proof.
  apply (op_good_bin OPdivQ floordivsi); [reflexivity|]. intros x y z X Y E. apply kind_int in X as (a & ->). apply kind_int in Y as (b & ->). cbn [apply] in E.
  destruct (Z.ltb_spec 0 b); [|discriminate]. destruct (0 <=? a); [|discriminate]. cbn [andb] in E. fin E. now rewrite divides_pos by lia.
Qed.
Lemma op_good_and : op_good OAnd [KBool; KBool] KBool.
Proof. apply (op_good_bin OAnd andi); [reflexivity|]. intros x y z X Y E. ints. cbn in E. apply some_inj in E. subst z. split; reflexivity. Qed.
Lemma op_good_or : op_good OOr [KBool; KBool] KBool.
Proof. apply (op_good_bin OOr ori); [reflexivity|]. intros x y z X Y E. ints. cbn in E. apply some_inj in E. subst z. split; reflexivity. Qed.

Lemma op_good_zdiv : op_good OZdivR [KInt; KInt] KInt.
Proof.
  intros vs n F. inversion F as [|a ? vs1 ? (La & Ta) F1]; subst. inversion F1 as [|b ? vs2 ? (Lb & Tb) F2]; subst. inversion F2; subst.
  cbn [build_op binary_op cmp_pred]. do 3 eexists. split; [reflexivity|]. split; [lia|]. split; [cbn; lia|]. split; [exact Ta|].
  intros env xs x G K E. inversion G as [|? x1 ? xs1 G1 G2]; subst. inversion G2 as [|? x2 ? xs2 G3 G4]; subst. inversion G4; subst.
  cbn [map] in K. injection K as K1 K2. apply kind_int in K1 as (z1 & ->). apply kind_int in K2 as (z2 & ->). cbn [apply] in E.
  destruct (Z.ltb_spec 0 z2); [|discriminate]. apply int_ok in E as (-> & R).
  destruct (bin_ok remsi a b (n, snd a) env (DI z1) (DI z2) (DI (Z.rem z1 z2))) as (e1 & Q & G5 & V); auto; try (now rewrite ?Ta, ?Tb).
  - cbn [arith]. now rewrite divides_pos by lia.
  - exists e1. cbn [Codegen_Model.execs]. rewrite Q. auto.
Qed.
Lemma const_ok r z env : - 2 ^ 31 <= z < 2 ^ 31 -> snd r = I32 ->
  exists env', exec (Const r z) env = Some env' /\ agree (fst r) env env' /\ env' (fst r) = Some (DI z).
Proof.
  intros H T. cbn [Codegen_Model.exec]. destruct (Z.leb_spec (- 2 ^ 31) z); [|lia]. destruct (Z.ltb_spec z (2 ^ 31)); [|lia]. cbn [andb].
  apply set_ok. now rewrite T.
Qed.
Lemma op_good_minus : op_good OMinus [KInt] KInt.
Proof.
  intros vs n F. inversion F as [|a ? vs1 ? (La & Ta) F1]; subst. inversion F1; subst.
  cbn [build_op binary_op]. do 3 eexists. split; [reflexivity|]. split; [lia|]. split; [cbn; lia|]. split; [reflexivity|].
  intros env xs x G K E. inversion G as [|? x1 ? xs1 G1 G2]; subst. inversion G2; subst. cbn [map] in K. injection K as K1. apply kind_int in K1 as (z & ->).
  cbn [apply] in E. apply int_ok in E as (-> & R). destruct (const_ok (n, I32) 0 env) as (e1 & Q1 & A1 & V1); [lia|reflexivity|]. cbn [fst] in A1, V1.
  destruct (bin_ok subi (n, I32) a (S n, I32) e1 (DI 0) (DI z) (DI (- z))) as (e2 & Q2 & A2 & V2); auto.
  - rewrite A1 by lia. exact G1.
  - now rewrite Ta.
  - cbn [arith]. rewrite wrap_small by lia. reflexivity.
  - cbn [fst] in A2, V2. exists e2. cbn [Codegen_Model.execs]. rewrite Q1, Q2. split; [reflexivity|].
    split; [exact (agree_trans n (S n) _ _ _ (Nat.le_succ_diag_r n) A1 A2)|]. split; [exact V2|reflexivity].
Qed.
Lemma op_good_pdivr : op_good OPdivR [KInt; KInt] KInt.
Proof.
  intros vs n F. inversion F as [|a ? vs1 ? (La & Ta) F1]; subst. inversion F1 as [|b ? vs2 ? (Lb & Tb) F2]; subst. inversion F2; subst.
  cbn [build_op binary_op cmp_pred]. do 3 eexists. split; [reflexivity|]. split; [lia|]. split; [cbn; lia|]. split; [exact Ta|].
  intros env xs x G K E. inversion G as [|? x1 ? xs1 G1 G2]; subst. inversion G2 as [|? x2 ? xs2 G3 G4]; subst. inversion G4; subst.
  cbn [map] in K. injection K as K1 K2. apply kind_int in K1 as (z1 & ->). apply kind_int in K2 as (z2 & ->). cbn [apply] in E.
  destruct (Z.ltb_spec 0 z2) as [P|]; [|discriminate]. destruct (Z.leb_spec 0 z1); [|discriminate]. cbn [andb] in E. apply int_ok in E as (-> & R).
  destruct (bin_ok floordivsi a b (n, snd a) env (DI z1) (DI z2) (DI (z1 / z2))) as (e1 & Q1 & A1 & V1); auto; try (now rewrite ?Ta, ?Tb).
  { cbn [arith]. now rewrite divides_pos by lia. }
  cbn [fst] in A1, V1.
  destruct (bin_ok muli b (n, snd a) (S n, snd b) e1 (DI z2) (DI (z1 / z2)) (DI (wrap (z2 * (z1 / z2))))) as (e2 & Q2 & A2 & V2); auto; try (now rewrite ?Ta, ?Tb).
  { rewrite A1 by lia. exact G3. }
  cbn [fst] in A2, V2.
  destruct (bin_ok subi a (S n, snd b) (S (S n), snd a) e2 (DI z1) (DI (wrap (z2 * (z1 / z2)))) (DI (z1 mod z2))) as (e3 & Q3 & A3 & V3); auto; try (now rewrite ?Ta, ?Tb).
  { rewrite A2, A1 by lia. exact G1. }
  { cbn [arith]. rewrite wrap_sub, <- Z.mod_eq by lia. rewrite wrap_small by lia. reflexivity. }
  cbn [fst] in A3, V3. exists e3. cbn [Codegen_Model.execs]. rewrite Q1, Q2, Q3. split; [reflexivity|]. split; [|split; [exact V3|reflexivity]].
  intros k Hk. rewrite A3, A2, A1 by lia. reflexivity.
Qed.

Lemma op_good_cmp o p k1 k2 : binary_op o = None -> o <> OMinus -> cmp_pred o = Some p -> (k1 = KInt /\ k2 = KInt \/ p = eq) ->
  (forall x y z, kind_of x = k1 -> kind_of y = k2 -> apply o [x; y] = Some z -> z = IBool (compare p (as_int x) (as_int y))) ->
  op_good o [k1; k2] KBool.
Proof.
  intros B0 B1 Ep Hk H vs n F. inversion F as [|a ? vs1 ? (La & Ta) F1]; subst. inversion F1 as [|b ? vs2 ? (Lb & Tb) F2]; subst. inversion F2; subst.
  assert (E0 : build_op o [a; b] n =
    let '(is1, a, is2, b, n) :=
      if ty_eqb (snd a) (snd b) then ([], a, [], b, n)
      else let w := common a b in
           let '(is1, a', n) := extend w a n in let '(is2, b', n) := extend w b n in (is1, a', is2, b', n) in
    let r := (n, I1) in Some (is1 ++ is2 ++ [CmpI r p a b], r, S n)).
  { unfold build_op. rewrite B0, Ep. destruct o; try reflexivity. congruence. }
  rewrite E0. unfold common, extend. rewrite Ta, Tb.
  assert (C : forall (e : env) (u v : val) (x y : ival) d1 d2 m, e (fst u) = Some d1 -> e (fst v) = Some d2 -> has A d1 (snd u) = true -> has A d2 (snd v) = true -> same A d1 d2 = true ->
     (exists s1 s2, signed A d1 = Some s1 /\ signed A d2 = Some s2 /\ compare p s1 s2 = compare p (as_int x) (as_int y)) ->
     exists e', execs [CmpI (m, I1) p u v] e = Some e' /\ agree m e e' /\ e' m = Some (DB (compare p (as_int x) (as_int y)))).
  { intros e u v x y d1 d2 m E1 E2 H1 H2 Sm (s1 & s2 & S1 & S2 & Sc). destruct (set_ok (m, I1) (DB (compare p (as_int x) (as_int y))) e eq_refl) as (e' & Q & G & V).
    exists e'. cbn [Codegen_Model.execs Codegen_Model.exec]. rewrite (lookup_ok _ _ _ E1 H1), (lookup_ok _ _ _ E2 H2), Sm, S1, S2, Sc, Q. auto. }
  destruct k1, k2; cbn [kty ty_eqb].
  - do 3 eexists. split; [reflexivity|]. split; [lia|]. split; [cbn; lia|]. split; [reflexivity|].
    intros env xs x G K E. inversion G as [|? x1 ? xs1 G1 G2]; subst. inversion G2 as [|? x2 ? xs2 G3 G4]; subst. inversion G4; subst. cbn [map] in K. injection K as K1 K2.
    rewrite (H _ _ _ K1 K2 E). apply kind_int in K1 as (z1 & ->). apply kind_int in K2 as (z2 & ->).
    destruct (C env a b (IInt z1) (IInt z2) (DI z1) (DI z2) n) as (e' & Q & A1 & V); auto; try (now rewrite ?Ta, ?Tb). { exists z1, z2. auto. }
    exists e'. cbn [app]. auto.
  - destruct Hk as [(_ & Hk)| ->]; [discriminate|]. do 3 eexists. split; [reflexivity|]. split; [lia|]. split; [cbn; lia|]. split; [reflexivity|].
    intros env xs x G K E. inversion G as [|? x1 ? xs1 G1 G2]; subst. inversion G2 as [|? x2 ? xs2 G3 G4]; subst. inversion G4; subst. cbn [map] in K. injection K as K1 K2.
    rewrite (H _ _ _ K1 K2 E). apply kind_int in K1 as (z1 & ->). apply kind_bool in K2 as (z2 & ->).
    destruct (set_ok (n, I32) (DI (if z2 then 1 else 0)) env eq_refl) as (e1 & Q1 & A1 & V1). cbn [fst] in A1, V1.
    destruct (C e1 a (n, I32) (IInt z1) (IBool z2) (DI z1) (DI (if z2 then 1 else 0)) (S n)) as (e' & Q & A2 & V); auto; try (now rewrite ?Ta, ?Tb).
    { rewrite A1 by lia. exact G1. } { exists z1, (if z2 then 1 else 0). auto. }
    exists e'. cbn [app]. cbn [Codegen_Model.execs] in *. split; [|split; [exact (agree_trans n (S n) _ _ _ (Nat.le_succ_diag_r n) A1 A2)|split; [exact V|reflexivity]]].
    cbn [Codegen_Model.exec] in *. unfold bool1. rewrite (lookup_ok env b (DB z2)); [|exact G3|now rewrite Tb]. rewrite Q1. exact Q.
  - destruct Hk as [(Hk & _)| ->]; [discriminate|]. do 3 eexists. split; [reflexivity|]. split; [lia|]. split; [cbn; lia|]. split; [reflexivity|].
    intros env xs x G K E. inversion G as [|? x1 ? xs1 G1 G2]; subst. inversion G2 as [|? x2 ? xs2 G3 G4]; subst. inversion G4; subst. cbn [map] in K. injection K as K1 K2.
    rewrite (H _ _ _ K1 K2 E). apply kind_bool in K1 as (z1 & ->). apply kind_int in K2 as (z2 & ->).
    destruct (set_ok (n, I32) (DI (if z1 then 1 else 0)) env eq_refl) as (e1 & Q1 & A1 & V1). cbn [fst] in A1, V1.
    destruct (C e1 (n, I32) b (IBool z1) (IInt z2) (DI (if z1 then 1 else 0)) (DI z2) (S n)) as (e' & Q & A2 & V); auto; try (now rewrite ?Ta, ?Tb).
    { rewrite A1 by lia. exact G3. } { exists (if z1 then 1 else 0), z2. auto. }
    exists e'. cbn [app]. cbn [Codegen_Model.execs] in *. split; [|split; [exact (agree_trans n (S n) _ _ _ (Nat.le_succ_diag_r n) A1 A2)|split; [exact V|reflexivity]]].
    cbn [Codegen_Model.exec] in *. unfold bool1. rewrite (lookup_ok env a (DB z1)); [|exact G1|now rewrite Ta]. rewrite Q1. exact Q.
  - destruct Hk as [(Hk & _)| ->]; [discriminate|]. do 3 eexists. split; [reflexivity|]. split; [lia|]. split; [cbn; lia|]. split; [reflexivity|].
    intros env xs x G K E. inversion G as [|? x1 ? xs1 G1 G2]; subst. inversion G2 as [|? x2 ? xs2 G3 G4]; subst. inversion G4; subst. cbn [map] in K. injection K as K1 K2.
    rewrite (H _ _ _ K1 K2 E). apply kind_bool in K1 as (z1 & ->). apply kind_bool in K2 as (z2 & ->).
    destruct (C env a b (IBool z1) (IBool z2) (DB z1) (DB z2) n) as (e' & Q & A1 & V); auto; try (now rewrite ?Ta, ?Tb).
    { exists (if z1 then -1 else 0), (if z2 then -1 else 0). split; [reflexivity|]. split; [reflexivity|]. now destruct z1, z2. }
    exists e'. cbn [app]. auto.
Qed.

Lemma op_good_select k : op_good OSelect [KBool; k; k] k.
Proof.
  intros vs n F. inversion F as [|c ? vs0 ? (Lc & Tc) F0]; subst. inversion F0 as [|a ? vs1 ? (La & Ta) F1]; subst. inversion F1 as [|b ? vs2 ? (Lb & Tb) F2]; subst. inversion F2; subst.
  cbn [build_op binary_op cmp_pred]. rewrite Tc. cbn [kty ty_eqb]. do 3 eexists. split; [reflexivity|]. split; [lia|]. split; [cbn; lia|]. split; [exact Ta|].
  intros env xs x G K E. inversion G as [|? x0 ? xs0 G0 G']; subst. inversion G' as [|? x1 ? xs1 G1 G2]; subst. inversion G2 as [|? x2 ? xs2 G3 G4]; subst. inversion G4; subst.
  cbn [map] in K. injection K as K0 K1 K2. apply kind_bool in K0 as (z0 & ->). cbn [apply] in E. apply some_inj in E. subst x.
  assert (Kd : kind_of (if z0 then x1 else x2) = k) by (now destruct z0).
  destruct (set_ok (n, snd a) (emb (if z0 then x1 else x2)) env) as (e1 & Q & A1 & V); [cbn [snd]; rewrite Ta, <- Kd; apply has_emb|].
  exists e1. cbn [Codegen_Model.execs Codegen_Model.exec]. unfold bool1. rewrite (lookup_ok env c (DB z0)); [|exact G0|now rewrite Tc].
  rewrite (lookup_ok env a (emb x1)); [|exact G1|rewrite Ta, <- K1; apply has_emb]. rewrite (lookup_ok env b (emb x2)); [|exact G3|rewrite Tb, <- K2; apply has_emb].
  assert (Sm : same A (emb x1) (emb x2) = true) by (destruct x1, x2; try reflexivity; cbn [kind_of] in *; congruence).
  rewrite Sm. replace (if z0 then emb x1 else emb x2) with (emb (if z0 then x1 else x2)) by (now destruct z0). rewrite Q. auto.
Qed.

Lemma op_good_nary o m g ks : binary_op o = Some m -> (forall a b, arith A m (DI a) (DI b) = Some (DI (g a b))) -> Forall (fun k => k = KInt) ks ->
  (forall a zs x, apply o (IInt a :: map IInt zs) = Some x -> x = IInt (fold_left g zs a)) -> op_good o (KInt :: KInt :: ks) KInt.
Proof.
  intros Em Hm Hk Ha vs n F. inversion F as [|a ? vs1 ? (La & Ta) F1]; subst.
  assert (F2 : Forall (fun v => (fst v < n)%nat) vs1 /\ Forall (fun v => snd v = I32) vs1).
  { assert (Hk' : Forall (fun k => k = KInt) (KInt :: ks)) by (now constructor). clear -F1 Hk'. revert Hk'. induction F1 as [|v k l l' (H1 & H2) F1 IH]; [auto|].
    intros Hk. inversion Hk; subst. destruct (IH H4). split; constructor; auto. }
  destruct F2 as (F2 & F3).
  assert (Z1 : forall env xs, Forall2 (fun v x => env (fst v) = Some (emb x)) vs1 xs -> map kind_of xs = KInt :: ks -> exists zs, xs = map IInt zs /\ Forall2 (fun v z => env (fst v) = Some (DI z)) vs1 zs).
  { intros env xs G K. assert (Hk' : Forall (fun k => k = KInt) (map kind_of xs)) by (rewrite K; now constructor). clear -G Hk'. revert Hk'. induction G as [|v x l l' H G IH].
    - exists []. auto.
    - intros Hk. inversion Hk as [|? ? H1 H2]; subst. destruct (IH H2) as (zs & -> & Gz). apply kind_int in H1 as (z & ->). exists (z :: zs). split; [reflexivity|]. constructor; auto. }
  assert (R : exists is v n', build_op o (a :: vs1) n = Some (is, v, n') /\ reduce m a vs1 n = (is, v, n')).
  { unfold build_op. rewrite Em. destruct vs1 as [|b vs2]; [inversion F1|]. destruct vs2 as [|c vs3]; cbn [tl].
    - do 3 eexists. split; reflexivity.
    - destruct (reduce m a (b :: c :: vs3) n) as [[is v] n'] eqn:Er. exists is, v, n'. auto. }
  destruct R as (is & v & n' & Eb & Er). destruct (reduce_ok m g Hm vs1 a n Ta F3 La F2) as (is' & v' & n'' & Er' & L & Lv & Tv & X).
  rewrite Er in Er'. injection Er' as -> -> ->. exists is', v', n''. split; [exact Eb|]. split; [exact L|]. split; [exact Lv|]. split; [exact Tv|].
  intros env xs x G K E. inversion G as [|? x1 ? xs1 G1 G2]; subst. cbn [map] in K. injection K as K1 K2. apply kind_int in K1 as (z & ->).
  destruct (Z1 env xs1 G2 K2) as (zs & -> & Gz). apply Ha in E. subst x. destruct (X env z zs G1 Gz) as (e & Q & A1 & V). exists e. auto.
Qed.

Lemma build_op_good o ks k : op_kind o ks = Some k -> op_good o ks k.
Proof.
  intros E.
  assert (Q : (o = OMax \/ o = OMin) \/ (o <> OMax /\ o <> OMin)) by (destruct o; auto; right; split; discriminate).
  destruct Q as [Q|(Q1 & Q2)].
  - assert (X : exists ks', ks = KInt :: KInt :: ks' /\ k = KInt /\ Forall (fun k => k = KInt) ks').
    { destruct Q; subst o; destruct ks as [|[] [|[] ks']]; try discriminate; cbn [op_kind] in E; destruct (forallb _ ks') eqn:Fb; try discriminate;
        exists ks'; (split; [reflexivity|]; split; [congruence|]); rewrite forallb_forall in Fb; apply Forall_forall; intros y Y; specialize (Fb y Y); now destruct y. }
    destruct X as (ks' & -> & -> & Fk). destruct Q; subst o.
    + apply (op_good_nary OMax maxsi Z.max); auto. intros a zs x H. cbn [apply] in H. now apply fold_max.
    + apply (op_good_nary OMin minsi Z.min); auto. intros a zs x H. cbn [apply] in H. now apply fold_min.
  - destruct ks as [|[] [|[] [|[] [|? ?]]]]; destruct o; try discriminate E; try (exfalso; now apply Q1); try (exfalso; now apply Q2); cbn [op_kind] in E; apply some_inj in E; subst k;
      auto using op_good_add, op_good_sub, op_good_mul, op_good_div, op_good_fdiv, op_good_pdiv, op_good_and, op_good_or, op_good_zdiv, op_good_minus, op_good_pdivr, op_good_select;
      match goal with
      | |- op_good ?o _ _ => let p := eval cbn in (cmp_pred o) in match p with Some ?p => apply (op_good_cmp o p) end
      end; try reflexivity; try discriminate; auto; intros x y z X Y Ez; ints; cbn in Ez; apply some_inj in Ez; subst z; reflexivity.
Qed.

Lemma builds_fix ivs args : forall n,
  (fix go (args : list expr) (n : nat) : option (list ins * list val * nat) :=
     match args with
     | [] => Some ([], [], n)
     | a :: args => let* (is1, v, n) := build ivs a n in let* (is2, vs, n) := go args n in Some (is1 ++ is2, v :: vs, n)
     end) args n = builds ivs args n.
Proof. induction args as [|a args IH]; intros n; [reflexivity|]. cbn [builds]. destruct (build ivs a n) as [[[is v] m]|]; [|reflexivity]. now rewrite IH. Qed.

Lemma build_ok names e : build_good names e.
Proof.
  induction e as [y|z|o args IH|] using expr_ind2; intros ivs n k K Sc.
  - cbn [kinded] in K. destruct (existsb _ names) eqn:X; [|discriminate]. apply some_inj in K. subst k. apply existsb_exists in X as (y' & I & Y). apply String.eqb_eq in Y. subst y'.
    destruct (Sc y I) as (i & E & L). exists [], (i, I32), n. cbn [build]. rewrite E. split; [reflexivity|]. split; [lia|]. split; [exact L|]. split; [reflexivity|].
    intros s env x H Ex. cbn [eval] in Ex. destruct (find y s) as [z|] eqn:Ez; [|discriminate]. apply int_ok in Ex as (-> & R).
    destruct (H y z Ez) as (i' & E' & _ & V). rewrite E in E'. injection E' as <-. exists env. split; [reflexivity|]. split; [apply agree_refl|]. split; [exact V|reflexivity].
  - cbn [kinded] in K. apply some_inj in K. subst k. exists [Const (n, I32) z], (n, I32), (S n). split; [reflexivity|]. split; [lia|]. split; [cbn; lia|]. split; [reflexivity|].
    intros s env x H Ex. cbn [eval] in Ex. apply int_ok in Ex as (-> & R). destruct (set_ok (n, I32) (DI z) env eq_refl) as (e1 & Q & A1 & V).
    exists e1. cbn [Codegen_Model.execs Codegen_Model.exec]. destruct (Z.leb_spec (- 2 ^ 31) z); [|lia]. destruct (Z.ltb_spec z (2 ^ 31)); [|lia]. cbn [andb]. rewrite Q. auto.
  - apply kinded_op in K as (ks & K1 & K2). destruct (builds_good names args IH ivs n ks K1 Sc) as (is1 & vs & n1 & B1 & L1 & F1 & X1).
    destruct (build_op_good o ks k K2 vs n1 F1) as (is2 & v & n2 & B2 & L2 & Lv & Tv & X2).
    exists (is1 ++ is2), v, n2. cbn [build]. rewrite builds_fix, B1, B2. split; [reflexivity|]. split; [lia|]. split; [exact Lv|]. split; [exact Tv|].
    intros s env x H Ex. cbn [eval] in Ex. destruct (all (map (eval s) args)) as [xs|] eqn:Ea; [|discriminate].
    destruct (X1 s env xs H Ea) as (e1 & Q1 & A1 & V1 & D1). destruct (X2 e1 xs x V1 D1 Ex) as (e2 & Q2 & A2 & V2 & D2).
    exists e2. rewrite execs_app, Q1. split; [exact Q2|]. split; [exact (agree_trans _ _ _ _ _ L1 A1 A2)|]. auto.
  - discriminate.
Qed.
End Proofs.
