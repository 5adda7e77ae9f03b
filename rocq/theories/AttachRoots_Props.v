(** C60: the roots attached to ntt and intt operations. *)
From Coq Require Import ZArith List Bool Lia Znumtheory Sorting.Sorted.
From Verif Require Import Words NumTheory_Model NumTheory_Proofs NumTheory_Props AttachRoots_Model AttachRoots_Proofs.
Import ListNotations.
Open Scope Z_scope.

(** the moduli of the limbs *)
Definition ring_limbs (rg : ring) : option (list ma_type) :=
  match rg_coeff rg with CMod t => Some [t] | CRns ts => Some ts | COther _ => None end.
(** the degree: the largest exponent *)
Definition poly_degree (p : int_poly) : Z := fold_right Z.max 0 (map fst p).
(** prime moduli in their storage type, degree of the ring polynomial a positive number of that type;
    IntPolynomial keeps its terms sorted by exponent *)
Definition ring_ok (rg : ring) : Prop :=
  forall p ts, rg_poly rg = Some p -> ring_limbs rg = Some ts ->
  Sorted Z.lt (map fst p) /\ 1 <= poly_degree p < 2 ^ 31 /\
  forall w q, In (w, q) ts -> 1 <= w /\ is_word w q /\ q <= 2 ^ 64 /\ prime q /\ is_word w (2 * poly_degree p).
Lemma degree_max p : Sorted Z.lt (map fst p) -> 1 <= poly_degree p -> degree p = poly_degree p.
Proof.
  intros H H1. apply Sorted_StronglySorted in H; [|intros x y z; lia]. unfold degree.
  induction p as [|[e c] p IH]; [reflexivity|]. unfold poly_degree in *. cbn [map fst fold_right] in *.
  inversion H as [|? ? Hs Hf]; subst. destruct p as [|[e' c'] p]; [cbn in *; lia|].
  assert (E : e < e') by (inversion Hf; auto).
  change (last ((e, c) :: (e', c') :: p) (0, 0)) with (last ((e', c') :: p) (0, 0)).
  assert (P : e' <= fold_right Z.max 0 (map fst ((e', c') :: p))) by (cbn [map fst fold_right]; lia).
  assert (N : 0 <= fold_right Z.max 0 (map fst ((e', c') :: p))) by (clear; induction ((e', c') :: p); cbn [map fold_right]; lia).
  rewrite Z.max_r in * by lia. apply IH; auto.
Qed.
(** [r] is a primitive 2n-th root of unity modulo q *)
Definition root_2n (n q r : Z) : Prop := 0 <= r < q /\ r ^ n mod q = q - 1.

(** prime moduli in their storage type, degree of the ring polynomial a positive number of that type *)
Definition ring_ok' (rg : ring) : Prop :=
  forall p ts, rg_poly rg = Some p -> ring_limbs rg = Some ts ->
  1 <= degree p < 2 ^ 31 /\
  forall w q, In (w, q) ts -> 1 <= w /\ is_word w q /\ q <= 2 ^ 64 /\ prime q /\ is_word w (2 * degree p).
Lemma attached_roots ops : Forall (fun o => ring_ok' (n_ring o)) ops ->
  exists fuel0, forall fuel, (fuel0 <= fuel)%nat ->
  exists out R, attach_pass fuel ops empty_cache = Some out /\ length out = length ops /\
  forall i o a, nth_error ops i = Some o -> nth_error out i = Some a ->
    (forall r, n_root o = Some r -> a = Some r) /\
    (n_root o = None ->
     forall p ts, rg_poly (n_ring o) = Some p -> ring_limbs (n_ring o) = Some ts ->
       let n := degree p in
       ((forall w q, In (w, q) ts -> (2 * n | q - 1)) ->
        exists l, a = Some (l, 2 * n) /\
        Forall2 (fun t r => root_2n n (snd t) (R t n) /\
           if n_forward o then r = R t n else 0 <= r < snd t /\ (R t n * r) mod snd t = 1) ts l) /\
       (~ (forall w q, In (w, q) ts -> (2 * n | q - 1)) -> a = None)) /\
    (n_root o = None -> rg_poly (n_ring o) = None \/ ring_limbs (n_ring o) = None -> a = None).
Proof.
  intros H.
  (* enough fuel for every limb *)
  set (fine := fun n (t : ma_type) => 1 <= n < 2 ^ 31 /\ 1 <= fst t /\ is_word (fst t) (snd t) /\ snd t <= 2 ^ 64 /\ prime (snd t) /\ is_word (fst t) (2 * n)).
  assert (F1 : forall n t, fine n t -> exists f0, forall f, (f0 <= f)%nat ->
     ((2 * n | snd t - 1) -> exists r, find_primitive_2nth_root f (fst t) (snd t) n = Some (Some r)) /\
     (~ (2 * n | snd t - 1) -> find_primitive_2nth_root f (fst t) (snd t) n = Some None)).
  { intros n t (Hn & Hw & Hq & H64 & Hp & H2n).
    destruct (find_2nth_terminates_mono (fst t) (snd t) ltac:(lia) (proj2 Hq) H64 Hp n ltac:(lia) (proj2 H2n)) as [f Hf].
    exists f. intros f' Hle. destruct (Hf f' Hle) as [A B].
    assert (Hiff : (2 * n | snd t - 1) <-> snd t mod (2 * n) = 1).
    { split.
      - intros [c Hc]. replace (snd t) with (1 + c * (2 * n)) by lia. rewrite Z_mod_plus_full. apply Z.mod_1_l; lia.
      - intros E. exists (snd t / (2 * n)). pose proof (Z.div_mod (snd t) (2 * n) ltac:(lia)). lia. }
    rewrite Hiff. auto. }
  assert (F2 : forall n ts, Forall (fine n) ts -> exists f0, forall f, (f0 <= f)%nat -> forall t, In t ts ->
     ((2 * n | snd t - 1) -> exists r, find_primitive_2nth_root f (fst t) (snd t) n = Some (Some r)) /\
     (~ (2 * n | snd t - 1) -> find_primitive_2nth_root f (fst t) (snd t) n = Some None)).
  { intros n ts. induction 1 as [|t ts Ht Hts [f0 IH]].
    - exists 0%nat. intros f _ t [].
    - destruct (F1 n t Ht) as [f1 G]. exists (f0 + f1)%nat. intros f Hf t' [<-|Ht']; [apply G; lia|apply IH; auto; lia]. }
  assert (FN : forall o, ring_ok' (n_ring o) -> forall p, rg_poly (n_ring o) = Some p -> Forall (fine (degree p)) (limbs (n_ring o))).
  { intros o Ho p Ep. apply Forall_forall. intros [w q] Ht. unfold limbs in Ht.
    destruct (rg_coeff (n_ring o)) eqn:EC; [| |destruct Ht];
      (destruct (Ho p _ Ep ltac:(unfold ring_limbs; rewrite EC; reflexivity)) as [D G]; destruct (G w q) as (G1 & G2 & G3 & G4 & G5); [auto|];
       exact (conj D (conj G1 (conj G2 (conj G3 (conj G4 G5)))))). }
  assert (F3 : exists f0, forall f, (f0 <= f)%nat -> Forall (fun o => forall p, rg_poly (n_ring o) = Some p -> forall t, In t (limbs (n_ring o)) ->
     ((2 * degree p | snd t - 1) -> exists r, find_primitive_2nth_root f (fst t) (snd t) (degree p) = Some (Some r)) /\
     (~ (2 * degree p | snd t - 1) -> find_primitive_2nth_root f (fst t) (snd t) (degree p) = Some None)) ops).
  { induction H as [|o ops Ho Hs [f0 IH]].
    - exists 0%nat. constructor.
    - destruct (rg_poly (n_ring o)) as [p|] eqn:Ep.
      + destruct (F2 (degree p) (limbs (n_ring o)) (FN o Ho p Ep)) as [f1 G]. exists (f0 + f1)%nat. intros f Hf. constructor.
        * intros p' Ep'. rewrite Ep in Ep'. injection Ep' as <-. apply G. lia.
        * apply IH. lia.
      + exists f0. intros f Hf. constructor; auto. intros p' Ep'. congruence. }
  destruct F3 as [f0 F3]. exists f0. intros fuel Hf. specialize (F3 fuel Hf).
  set (R := fun (t : ma_type) n => match find_primitive_2nth_root fuel (fst t) (snd t) n with Some (Some r) => r | _ => 0 end).
  assert (RT : forall n t x, fine n t -> fwd fuel n t x -> x = R t n /\ root_2n n (snd t) x /\
     exists y, multiplicative_inverse (fst t) x (snd t) = Some y /\ 0 <= y < snd t /\ (x * y) mod snd t = 1).
  { intros n t x (Hn & Hw & Hq & H64 & Hp & H2n) E. unfold fwd in E. split; [unfold R; rewrite E; auto|].
    destruct (C13_primitive_2nth_root (fst t) (snd t) n ltac:(lia) Hq H64 Hp ltac:(lia) H2n) as [S _].
    destruct (S fuel x E) as (B & N & _). split; [split; auto|].
    destruct (C10_multiplicative_inverse (fst t) (snd t) x Hw Hq B) as (y & Y1 & Y2 & _). exists y. split; auto.
    pose proof (prime_ge_2 _ Hp). rewrite (Z.mod_small 1) in Y2 by lia. apply Y2.
    apply Zgcd_1_rel_prime. apply rel_prime_sym. apply prime_rel_prime; auto. intros D.
    assert (X : (snd t | x ^ n)) by (replace n with (1 + (n - 1)) by lia; rewrite Z.pow_add_r by lia; rewrite Z.pow_1_r; apply Z.divide_mul_l; auto).
    apply Z.mod_divide in X; lia. }
  assert (EN : Forall (op_ends fuel) ops).
  { clear - H F3 FN RT. induction H as [|o ops Ho Hs IH]; constructor; inversion F3; subst; auto.
    intros p Ep. pose proof (FN o Ho p Ep) as FF. apply Forall_forall. intros t Ht.
    match goal with G : forall p, _ -> forall t, _ -> _ |- _ => destruct (G p Ep t Ht) as [A B] end.
    rewrite Forall_forall in FF. specialize (FF t Ht).
    destruct (Znumtheory.Zdivide_dec (2 * degree p) (snd t - 1)) as [D|D].
    - destruct (A D) as [r Er]. exists (Some r). split; auto. intros x [= <-].
      destruct (RT _ _ _ FF Er) as (_ & _ & y & Y & _). eauto.
    - exists None. split; auto. discriminate. }
  destruct (pass_ends fuel ops empty_cache (Inv_empty fuel) EN) as [out EO].
  exists out, R. split; auto. pose proof (pass_ok fuel ops empty_cache out (Inv_empty fuel) EO) as PO.
  assert (LN : length out = length ops) by (clear - PO; induction PO; cbn; auto).
  split; auto. clear EO LN EN Hf.
  revert out PO. induction H as [|o ops Ho Hs IH]; intros out PO i o' a E1 E2; inversion PO as [|? a' ? out' P1 P2]; subst.
  { destruct i; discriminate. }
  inversion F3 as [|? ? G3 F3']; subst. destruct i as [|i]; [|eapply IH; eauto].
  cbn in E1, E2. injection E1 as <-. injection E2 as <-. unfold op_result in P1.
  destruct (n_root o) as [r0|] eqn:ER.
  { split; [congruence|]. split; discriminate. }
  split; [discriminate|].
  assert (LM : forall ts, ring_limbs (n_ring o) = Some ts -> limbs (n_ring o) = ts).
  { unfold ring_limbs, limbs. intros ts. destruct (rg_coeff (n_ring o)); congruence. }
  split.
  - intros _ p ts Ep El n. pose proof (FN o Ho p Ep) as FF. rewrite (LM ts El) in *. split.
    + intros D. destruct a' as [[l cyc]|].
      * destruct P1 as (p' & Ep' & NO & -> & HF). rewrite Ep in Ep'. injection Ep' as <-. exists l. split; auto.
        try rewrite (LM ts El) in HF. clear - HF FF RT. fold n in HF, FF. induction HF as [|t r ts l Hd HF IH]; constructor; inversion FF; subst; auto.
        destruct (n_forward o); cbn [negb dir] in Hd.
        -- destruct (RT n t r) as (-> & B & _); auto.
        -- destruct Hd as (x & X1 & X2). destruct (RT n t x) as (-> & B & y & Y1 & Y2 & Y3); auto. rewrite X2 in Y1. injection Y1 as <-. auto.
      * exfalso. destruct P1 as [P1|[[id P1]|(p' & t & Ep' & Ht & Hx)]]; [congruence| |].
        -- unfold ring_limbs in El. rewrite P1 in El. discriminate.
        -- rewrite Ep in Ep'. injection Ep' as <-. try rewrite (LM ts El) in Ht. destruct (G3 p Ep t) as [A B]; [try rewrite (LM ts El); auto|].
           destruct t as [w q]. destruct (A (D w q Ht)) as [r Er]. congruence.
    + intros D. destruct a' as [[l cyc]|]; auto. exfalso. apply D.
      destruct P1 as (p' & Ep' & NO & -> & HF). rewrite Ep in Ep'. injection Ep' as <-. try rewrite (LM ts El) in HF.
      intros w q Ht. destruct (Znumtheory.Zdivide_dec (2 * n) (q - 1)) as [X|X]; auto. exfalso.
      destruct (G3 p Ep (w, q)) as [_ B]; [try rewrite (LM ts El); auto|]. specialize (B X). cbn in B.
      assert (Y : exists r, dir fuel (negb (n_forward o)) (degree p) (w, q) r).
      { clear - HF Ht. induction HF as [|t r ts l Hd HF IH]; [destruct Ht|]. destruct Ht as [->|Ht]; eauto. }
      destruct Y as [r Y]. destruct (n_forward o); cbn [negb dir] in Y; [|destruct Y as (x & Y & _)]; unfold fwd in Y; cbn in Y; congruence.
  - intros _ D. destruct a' as [[l cyc]|]; auto. exfalso. destruct P1 as (p' & Ep' & NO & -> & HF). destruct D as [D|D]; [congruence|].
    unfold ring_limbs in D. destruct (rg_coeff (n_ring o)) eqn:EC; try discriminate. eapply NO; eauto.
Qed.

(** There is one root per limb type and degree such that, whatever the order of the operations, every ntt
    operation gets these roots and every intt operation their inverses.  An operation gets a root exactly
    when its ring has a modulus polynomial of degree n, (RNS of) mod_arith coefficients and 2n divides q-1
    for every limb; a root that is already there is kept. *)
Theorem C60_attached_roots ops : Forall (fun o => ring_ok (n_ring o)) ops ->
  exists fuel0, forall fuel, (fuel0 <= fuel)%nat ->
  exists out R, attach_pass fuel ops empty_cache = Some out /\ length out = length ops /\
  forall i o a, nth_error ops i = Some o -> nth_error out i = Some a ->
    (forall r, n_root o = Some r -> a = Some r) /\
    (n_root o = None ->
     forall p ts, rg_poly (n_ring o) = Some p -> ring_limbs (n_ring o) = Some ts ->
       let n := poly_degree p in
       ((forall w q, In (w, q) ts -> (2 * n | q - 1)) ->
        exists l, a = Some (l, 2 * n) /\
        Forall2 (fun t r => root_2n n (snd t) (R t n) /\
           if n_forward o then r = R t n else 0 <= r < snd t /\ (R t n * r) mod snd t = 1) ts l) /\
       (~ (forall w q, In (w, q) ts -> (2 * n | q - 1)) -> a = None)) /\
    (n_root o = None -> rg_poly (n_ring o) = None \/ ring_limbs (n_ring o) = None -> a = None).
Proof.
  intros H.
  assert (R : Forall (fun o => ring_ok' (n_ring o) /\ ring_ok (n_ring o)) ops).
  { eapply Forall_impl; [|exact H]. intros o Ho. split; auto. intros p ts Ep Et. destruct (Ho p ts Ep Et) as (S & D & G).
    rewrite (degree_max p S (proj1 D)). auto. }
  destruct (attached_roots ops) as [f0 F]; [eapply Forall_impl; [|exact R]; cbn; tauto|].
  exists f0. intros fuel Hf. destruct (F fuel Hf) as (out & RR & E & L & G). exists out, RR. split; auto. split; auto.
  intros i o a E1 E2. destruct (G i o a E1 E2) as (G1 & G2 & G3). split; auto. split; auto.
  intros E3 p ts Ep Et. assert (In o ops) by (eapply nth_error_In; eauto). rewrite Forall_forall in R. destruct (R o H0) as [_ Ho].
  destruct (Ho p ts Ep Et) as (S & D & _). rewrite <- (degree_max p S (proj1 D)). apply G2; auto.
Qed.
Print Assumptions C60_attached_roots.

(** An intt before the ntt of the same ring, an RNS ring sharing a limb with it, and a modulus without root. *)
Example C60_nonvacuous :
  let x4 := Some [(0, 1); (4, 1)] in
  let ops := [NttOp (Ring (CMod (8, 17)) x4) false None; NttOp (Ring (CRns [(8, 17); (16, 41)]) x4) true None;
              NttOp (Ring (CMod (8, 17)) x4) true None; NttOp (Ring (CMod (8, 7)) x4) true None] in
  Forall (fun o => ring_ok (n_ring o)) ops /\
  attach_pass 60 ops empty_cache = Some [Some ([2], 8); Some ([9; 27], 8); Some ([9], 8); None] /\
  (2 * 9) mod 17 = 1 /\ 9 ^ 4 mod 17 = 16 /\ 27 ^ 4 mod 41 = 40.
Proof.
  cbv zeta. split; [|split; [vm_compute; reflexivity|auto]].
  assert (P7 : prime 7) by (apply prime_intro; [lia|]; intros n Hn; assert (E : n = 1 \/ n = 2 \/ n = 3 \/ n = 4 \/ n = 5 \/ n = 6) by lia;
    repeat (destruct E as [->|E]; [apply Zgcd_1_rel_prime; reflexivity|]); subst; apply Zgcd_1_rel_prime; reflexivity).
  assert (P17 : prime 17) by (apply prime_intro; [lia|]; intros n Hn; apply Zgcd_1_rel_prime;
    assert (E : exists k, n = Z.of_nat k /\ (k < 17)%nat) by (exists (Z.to_nat n); lia); destruct E as (k & -> & Hk);
    do 17 (destruct k as [|k]; [try lia; reflexivity|]); lia).
  assert (P41 : prime 41) by (apply prime_intro; [lia|]; intros n Hn; apply Zgcd_1_rel_prime;
    assert (E : exists k, n = Z.of_nat k /\ (k < 41)%nat) by (exists (Z.to_nat n); lia); destruct E as (k & -> & Hk);
    do 41 (destruct k as [|k]; [try lia; reflexivity|]); lia).
  repeat (apply Forall_cons || apply Forall_nil); intros p ts Ep Et; cbn in Ep, Et; injection Ep as <-; injection Et as <-;
    (split; [repeat constructor|]); (split; [cbn; lia|]); intros w q Hi; cbn in Hi |- *; unfold is_word;
    repeat (destruct Hi as [[= <- <-]|Hi]; [split; [lia|]; split; [lia|]; split; [lia|]; split; [assumption|lia]|]); destruct Hi.
Qed.
