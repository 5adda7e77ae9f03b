(** Lemmas for C60. *)
From Coq Require Import ZArith List Bool Lia Znumtheory.
From Verif Require Import Words NumTheory_Model NumTheory_Proofs NumTheory_Props AttachRoots_Model.
Import ListNotations.
Open Scope Z_scope.

Lemma pair_eqb_eq a b : pair_eqb a b = true <-> a = b.
Proof.
  destruct a, b. unfold pair_eqb. cbn. rewrite andb_true_iff, !Z.eqb_eq. split; [intros [-> ->]; auto|intros [= -> ->]; auto].
Qed.
Lemma pairs_eqb_eq a : forall b, pairs_eqb a b = true <-> a = b.
Proof.
  induction a as [|x a IH]; intros [|y b]; cbn; try (split; congruence).
  rewrite andb_true_iff, pair_eqb_eq, IH. split; [intros [-> ->]; auto|intros [= -> ->]; auto].
Qed.
Lemma ring_eqb_eq a b : ring_eqb a b = true <-> a = b.
Proof.
  destruct a as [ca pa], b as [cb pb]. unfold ring_eqb. cbn. rewrite andb_true_iff.
  assert (A : coeff_eqb ca cb = true <-> ca = cb).
  { destruct ca, cb; cbn; try (split; congruence).
    - rewrite pair_eqb_eq. split; congruence.
    - rewrite pairs_eqb_eq. split; congruence.
    - rewrite Nat.eqb_eq. split; congruence. }
  assert (B : match pa, pb with Some p, Some q => pairs_eqb p q | None, None => true | _, _ => false end = true <-> pa = pb).
  { destruct pa, pb; try (split; congruence). rewrite pairs_eqb_eq. split; congruence. }
  rewrite A, B. split; [intros [-> ->]; auto|intros [= -> ->]; auto].
Qed.
Lemma lookup_cons m r l s : lookup ((r, l) :: m) s = if ring_eqb r s then Some l else lookup m s.
Proof. unfold lookup. cbn. destruct (ring_eqb r s); auto. Qed.

Section Fuel.
Variable fuel : nat.
(** what the limb computations give *)
Definition fwd (n : Z) (t : ma_type) (r : Z) : Prop := find_primitive_2nth_root fuel (fst t) (snd t) n = Some (Some r).
Definition bwd (n : Z) (t : ma_type) (r : Z) : Prop :=
  exists x, fwd n t x /\ multiplicative_inverse (fst t) x (snd t) = Some r.
Definition good_entry (P : Z -> ma_type -> Z -> Prop) (rg : ring) (l : list Z) : Prop :=
  match rg_poly rg, rg_coeff rg with
  | Some p, CMod t => exists r, l = [r] /\ P (degree p) t r
  | Some p, CRns ts => Forall2 (P (degree p)) ts l
  | _, _ => False
  end.
Definition Inv (c : cache) : Prop :=
  (forall rg l, lookup (ntt_roots c) rg = Some l -> good_entry fwd rg l) /\
  (forall rg l, lookup (intt_roots c) rg = Some l -> good_entry bwd rg l).
Definition dir (inv : bool) : Z -> ma_type -> Z -> Prop := if inv then bwd else fwd.

Lemma Inv_add_ntt c rg l : Inv c -> good_entry fwd rg l -> Inv (Cache ((rg, l) :: ntt_roots c) (intt_roots c)).
Proof.
  intros [A B] G. split; cbn; auto. intros rg' l'. rewrite lookup_cons. destruct (ring_eqb rg rg') eqn:E; auto.
  apply ring_eqb_eq in E. subst. intros [= <-]. auto.
Qed.
Lemma Inv_add_intt c rg l : Inv c -> good_entry bwd rg l -> Inv (Cache (ntt_roots c) ((rg, l) :: intt_roots c)).
Proof.
  intros [A B] G. split; cbn; auto. intros rg' l'. rewrite lookup_cons. destruct (ring_eqb rg rg') eqn:E; auto.
  apply ring_eqb_eq in E. subst. intros [= <-]. auto.
Qed.

Lemma get_root_ok p t inv c r c' : Inv c -> get_root fuel (Ring (CMod t) (Some p)) t (degree p) inv c = Some (r, c') ->
  Inv c' /\ match r with
            | Some x => dir inv (degree p) t x
            | None => find_primitive_2nth_root fuel (fst t) (snd t) (degree p) = Some None
            end.
Proof.
  intros HI. unfold get_root. set (rg := Ring (CMod t) (Some p)).
  assert (GE : forall P l, good_entry P rg l -> P (degree p) t (hd 0 l)) by (intros P l (x & -> & H); auto).
  destruct (lookup (if inv then intt_roots c else ntt_roots c) rg) as [l|] eqn:E1.
  { intros [= <- <-]. split; auto. destruct inv; apply GE; apply HI; auto. }
  destruct (lookup (ntt_roots c) rg) as [l|] eqn:E2; cbn [bind].
  - rewrite E2. pose proof (proj1 HI _ _ E2) as G. destruct G as (x & -> & Hx). cbn [hd].
    destruct inv.
    + destruct (multiplicative_inverse (fst t) x (snd t)) as [y|] eqn:EY; [cbn [bind]|discriminate].
      intros [= <- <-]. assert (B : bwd (degree p) t y) by (exists x; auto). split; auto.
      apply Inv_add_intt; auto. exists y. auto.
    + congruence.
  - destruct (find_primitive_2nth_root fuel (fst t) (snd t) (degree p)) as [[x|]|] eqn:EF; cbn [bind]; [|intros [= <- <-]; auto|discriminate].
    cbn [ntt_roots]. rewrite lookup_cons. replace (ring_eqb rg rg) with true by (symmetry; apply ring_eqb_eq; auto).
    cbn [hd]. assert (I1 : Inv (Cache ((rg, [x]) :: ntt_roots c) (intt_roots c))) by (apply Inv_add_ntt; auto; exists x; auto).
    destruct inv.
    + destruct (multiplicative_inverse (fst t) x (snd t)) as [y|] eqn:EY; [cbn [bind]|discriminate].
      intros [= <- <-]. assert (B : bwd (degree p) t y) by (exists x; auto). split; auto.
      apply (Inv_add_intt _ _ _ I1). exists y. auto.
    + intros [= <- <-]. split; auto.
Qed.
Lemma limb_roots_ok p ts inv : forall c r c', Inv c -> limb_roots fuel p ts inv c = Some (r, c') ->
  Inv c' /\ match r with
            | Some l => Forall2 (dir inv (degree p)) ts l
            | None => exists t, In t ts /\ find_primitive_2nth_root fuel (fst t) (snd t) (degree p) = Some None
            end.
Proof.
  induction ts as [|t ts IH]; intros c r c' HI; cbn [limb_roots].
  - intros [= <- <-]. auto.
  - destruct (get_root fuel _ t (degree p) inv c) as [[x c1]|] eqn:E1; [cbn [bind]|discriminate].
    destruct (get_root_ok _ _ _ _ _ _ HI E1) as [I1 H1]. destruct x as [x|].
    2:{ intros [= <- <-]. split; auto. exists t. split; auto. left; auto. }
    destruct (limb_roots fuel p ts inv c1) as [[l c2]|] eqn:E2; [cbn [bind]|discriminate].
    destruct (IH _ _ _ I1 E2) as [I2 H2]. destruct l as [l|]; intros [= <- <-]; split; auto.
    destruct H2 as (t' & A & B). exists t'. split; auto. right; auto.
Qed.
Definition limbs (rg : ring) : list ma_type :=
  match rg_coeff rg with CMod t => [t] | CRns ts => ts | COther _ => [] end.
Lemma attach_ok rg f c r c' : Inv c -> attach fuel rg f c = Some (r, c') ->
  Inv c' /\ match r with
            | Some (l, cyc) => exists p, rg_poly rg = Some p /\ (forall id, rg_coeff rg <> COther id) /\ cyc = 2 * degree p /\ Forall2 (dir (negb f) (degree p)) (limbs rg) l
            | None => rg_poly rg = None \/ (exists id, rg_coeff rg = COther id) \/
                exists p t, rg_poly rg = Some p /\ In t (limbs rg) /\
                  find_primitive_2nth_root fuel (fst t) (snd t) (degree p) = Some None
            end.
Proof.
  intros HI. destruct rg as [ct op]. unfold attach. cbn [rg_poly rg_coeff limbs]. destruct op as [p|].
  2:{ intros [= <- <-]. auto. }
  destruct ct as [t|ts|id].
  - destruct (get_root fuel _ t (degree p) (negb f) c) as [[x c1]|] eqn:E1; [cbn [bind fst snd]|discriminate].
    destruct (get_root_ok _ _ _ _ _ _ HI E1) as [I1 H1]. intros [= <- <-]. split; auto.
    destruct x as [x|]; cbn [option_map]; [exists p; cbn; repeat split; auto; discriminate|]. right; right. exists p, t. split; auto. split; auto. cbn; auto.
  - destruct (lookup _ _) as [l|] eqn:EL.
    { intros [= <- <-]. split; auto. exists p. split; auto. split; [cbn; discriminate|]. split; auto.
      destruct f; cbn [negb dir] in *; [apply (proj1 HI _ _ EL)|apply (proj2 HI _ _ EL)]. }
    destruct (limb_roots fuel p ts (negb f) c) as [[l c1]|] eqn:E1; [cbn [bind]|discriminate].
    destruct (limb_roots_ok _ _ _ _ _ _ HI E1) as [I1 H1]. destruct l as [l|].
    + intros [= <- <-]. split; [|exists p; cbn; repeat split; auto; discriminate]. destruct f; cbn [negb] in *; [apply Inv_add_ntt|apply Inv_add_intt]; auto.
    + intros [= <- <-]. split; auto. right; right. destruct H1 as (t & A & B). exists p, t. auto.
  - intros [= <- <-]. split; auto. right; left. eauto.
Qed.
Definition op_result (o : ntt_op) (r : option (list Z * Z)) : Prop :=
  match n_root o with
  | Some x => r = Some x
  | None =>
      match r with
      | Some (l, cyc) => exists p, rg_poly (n_ring o) = Some p /\ (forall id, rg_coeff (n_ring o) <> COther id) /\ cyc = 2 * degree p /\
          Forall2 (dir (negb (n_forward o)) (degree p)) (limbs (n_ring o)) l
      | None => rg_poly (n_ring o) = None \/ (exists id, rg_coeff (n_ring o) = COther id) \/
          exists p t, rg_poly (n_ring o) = Some p /\ In t (limbs (n_ring o)) /\
            find_primitive_2nth_root fuel (fst t) (snd t) (degree p) = Some None
      end
  end.
Lemma pass_ok ops : forall c out, Inv c -> attach_pass fuel ops c = Some out -> Forall2 op_result ops out.
Proof.
  induction ops as [|o ops IH]; intros c out HI; cbn [attach_pass].
  - intros [= <-]. auto.
  - destruct (n_root o) as [x|] eqn:ER.
    + destruct (attach_pass fuel ops c) as [rest|] eqn:E; [cbn [bind]|discriminate]. intros [= <-].
      constructor; eauto. unfold op_result. rewrite ER. auto.
    + destruct (attach fuel (n_ring o) (n_forward o) c) as [[r c1]|] eqn:E; [cbn [bind fst snd]|discriminate].
      destruct (attach_ok _ _ _ _ _ HI E) as [I1 H1].
      destruct (attach_pass fuel ops c1) as [rest|] eqn:E2; [cbn [bind]|discriminate]. intros [= <-].
      constructor; eauto. unfold op_result. rewrite ER. auto.
Qed.

(** no failure when every limb computation ends *)
Definition ends (n : Z) (t : ma_type) : Prop :=
  exists r, find_primitive_2nth_root fuel (fst t) (snd t) n = Some r /\
    forall x, r = Some x -> exists y, multiplicative_inverse (fst t) x (snd t) = Some y.
Lemma get_root_ends p t inv c : Inv c -> ends (degree p) t ->
  exists r, get_root fuel (Ring (CMod t) (Some p)) t (degree p) inv c = Some r.
Proof.
  intros HI (r & E & EI). unfold get_root. set (rg := Ring (CMod t) (Some p)).
  destruct (lookup (if inv then intt_roots c else ntt_roots c) rg) as [l|] eqn:E1; eauto.
  destruct (lookup (ntt_roots c) rg) as [l|] eqn:E2; cbn [bind].
  - rewrite E2. destruct (proj1 HI _ _ E2) as (x & -> & Hx). unfold fwd in Hx. rewrite E in Hx.
    destruct (EI x) as [y Ey]; [congruence|]. cbn [hd]. destruct inv; [rewrite Ey|]; cbn [bind]; eauto.
  - rewrite E. destruct r as [x|]; cbn [bind]; eauto. cbn [ntt_roots]. rewrite lookup_cons.
    replace (ring_eqb rg rg) with true by (symmetry; apply ring_eqb_eq; auto). cbn [hd].
    destruct (EI x) as [y Ey]; [congruence|]. destruct inv; [rewrite Ey|]; cbn [bind]; eauto.
Qed.
Lemma limb_roots_ends p ts inv : forall c, Inv c -> Forall (ends (degree p)) ts ->
  exists r, limb_roots fuel p ts inv c = Some r.
Proof.
  induction ts as [|t ts IH]; intros c HI H; cbn [limb_roots]; eauto. inversion H; subst.
  destruct (get_root_ends p t inv c HI) as [[x c1] E1]; auto. rewrite E1. cbn [bind].
  destruct (get_root_ok _ _ _ _ _ _ HI E1) as [I1 _]. destruct x; eauto.
  destruct (IH c1 I1) as [[l c2] E2]; auto. rewrite E2. cbn [bind]. destruct l; eauto.
Qed.
Definition op_ends (o : ntt_op) : Prop := forall p, rg_poly (n_ring o) = Some p -> Forall (ends (degree p)) (limbs (n_ring o)).
Lemma attach_ends rg f c : Inv c -> (forall p, rg_poly rg = Some p -> Forall (ends (degree p)) (limbs rg)) ->
  exists r, attach fuel rg f c = Some r.
Proof.
  intros HI H. destruct rg as [ct op]. unfold attach. cbn [rg_poly rg_coeff limbs] in *. destruct op as [p|]; eauto.
  specialize (H p eq_refl). destruct ct as [t|ts|id]; eauto.
  - inversion H; subst. destruct (get_root_ends p t (negb f) c HI) as [x E]; auto. rewrite E. cbn [bind]. eauto.
  - destruct (lookup _ _); eauto. destruct (limb_roots_ends p ts (negb f) c HI H) as [[l c1] E]. rewrite E. cbn [bind].
    destruct l; eauto.
Qed.
Lemma pass_ends ops : forall c, Inv c -> Forall op_ends ops -> exists out, attach_pass fuel ops c = Some out.
Proof.
  induction ops as [|o ops IH]; intros c HI H; cbn [attach_pass]; eauto. inversion H as [|? ? Ho Hs]; subst.
  destruct (n_root o).
  - destruct (IH c HI Hs) as [rest E]. rewrite E. cbn [bind]. eauto.
  - destruct (attach_ends (n_ring o) (n_forward o) c HI Ho) as [[r c1] E]. rewrite E. cbn [bind fst snd].
    destruct (attach_ok _ _ _ _ _ HI E) as [I1 _]. destruct (IH c1 I1 Hs) as [rest E2]. rewrite E2. cbn [bind]. eauto.
Qed.
Lemma Inv_empty : Inv empty_cache.
Proof. split; intros rg l H; discriminate. Qed.
End Fuel.
