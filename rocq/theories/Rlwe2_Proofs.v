(** Proofs about mod-down, key switching and relinearization (C78). *)
From Coq Require Import ZArith List Bool Lia Setoid Morphisms Ring Znumtheory.
From Verif Require Import Words Sums ModEq ModArith_Model ModArith_Props NumTheory_Model NumTheory_Proofs NumTheory_Props
  RNS_Model RNS_Proofs RNS_Props Rlwe_Spec Rlwe_Model Rlwe_Ring Rlwe_Proofs.
Import ListNotations.
Open Scope Z_scope.

(** ** Residue representations *)
Lemma pres_len n q a : length (pres n q a) = n.
Proof. apply len_map_seq. Qed.
Lemma pres_can n q a : 0 < q -> Forall (fun v => 0 <= v < q) (pres n q a).
Proof. intros. apply Forall_forall. intros v Hv. apply in_map_iff in Hv. destruct Hv as (k & <- & _). apply Z.mod_pos_bound. auto. Qed.
Lemma pres_pc n q a : q <> 0 -> pc n q (pres n q a) a.
Proof. intros Hq. apply mod_pc; auto. intros. apply coef_pres. auto. Qed.
Lemma pres_ext n q a b : 0 < q -> pc n q a b -> pres n q a = pres n q b.
Proof.
  intros Hq H. apply (pc_can n q); try apply pres_len; try apply pres_can; auto.
  eapply pc_trans; [apply pres_pc; lia|]. eapply pc_trans; [exact H|]. apply pc_sym, pres_pc. lia.
Qed.
Lemma reduced_pres n q a b : 0 < q -> length a = n -> pc n q a b -> reduced q a = pres n q b.
Proof.
  intros Hq L H. apply (pc_can n q); try apply pres_len; try apply pres_can; auto.
  - rewrite reduced_length. auto.
  - apply reduced_can. auto.
  - eapply pc_trans; [apply reduced_pc; lia|]. eapply pc_trans; [exact H|]. apply pc_sym, pres_pc. lia.
Qed.
Lemma zip_prns n f qs a b : Forall (fun q => 0 < q) qs -> (forall x y, length (f x y) = n) ->
  (forall q x x' y y', pc n q x x' -> pc n q y y' -> pc n q (f x y) (f x' y')) ->
  zip_limbs f qs (prns n qs a) (prns n qs b) = prns n qs (f a b).
Proof.
  intros Hq HL HP. unfold prns. induction Hq as [|q qs Hq _ IH]; simpl; auto. f_equal; auto.
  apply reduced_pres; auto. apply HP; apply pres_pc; lia.
Qed.
Lemma prns_ext n qs a b : (forall q, In q qs -> 0 < q /\ pc n q a b) -> prns n qs a = prns n qs b.
Proof. intros H. apply map_ext_in. intros q Hq. destruct (H q Hq). apply pres_ext; auto. Qed.
Lemma pc_divide n q m a b : (q | m) -> pc n m a b -> pc n q a b.
Proof. intros H P k Hk. eapply Z.divide_trans; [exact H|]. apply P. auto. Qed.

(** ** Centred representatives *)
Definition centre (M x : Z) : Z := (x + M / 2) mod M - M / 2.
Lemma centre_spec M x : 0 < M -> Z.odd M = true -> - M < 2 * centre M x < M /\ (M | x - centre M x).
Proof.
  intros HM Ho. unfold centre. pose proof (Z.mod_pos_bound (x + M / 2) M HM).
  rewrite Zodd_mod in Ho. apply Zeq_bool_eq in Ho. pose proof (Z.div_mod M 2 ltac:(lia)). split; [lia|].
  exists ((x + M / 2) / M). pose proof (Z.div_mod (x + M / 2) M ltac:(lia)). lia.
Qed.
Definition pcentre (n : nat) (M : Z) (a : list Z) : list Z := map (fun k => centre M (coef a k)) (seq 0 n).
Lemma coef_pcentre n M a k : (k < n)%nat -> coef (pcentre n M a) k = centre M (coef a k).
Proof. intros. apply coef_map. auto. Qed.
Lemma pcentre_pc n M a : 0 < M -> Z.odd M = true -> pc n M a (pcentre n M a).
Proof. intros HM Ho k Hk. rewrite coef_pcentre by auto. apply centre_spec; auto. Qed.

Lemma modulus_divide q l : In q l -> (q | modulus_product l).
Proof.
  induction l as [|a l IH]; intros H; [destruct H|]. simpl. destruct H as [->|H].
  - apply Z.divide_factor_l.
  - apply Z.divide_mul_r. auto.
Qed.
Lemma modulus_pos l : Forall (fun q => 0 < q) l -> 0 < modulus_product l.
Proof. intros H. induction H; simpl; [lia|]. apply Z.mul_pos_pos; auto. Qed.
Lemma modulus_odd l : (forall q, In q l -> Z.odd q = true) -> Z.odd (modulus_product l) = true.
Proof.
  induction l as [|a l IH]; intros H; [reflexivity|]. change (modulus_product (a :: l)) with (a * modulus_product l).
  rewrite Z.odd_mul, (H a), IH; auto; [intros; apply H; right; auto|left; auto].
Qed.
Lemma modulus_app l m : modulus_product (l ++ m) = modulus_product l * modulus_product m.
Proof. exact (prodl_app l m). Qed.

(** ** Basis conversion of a polynomial *)
Definition good_modulus (w q : Z) : Prop := accepted_type w q /\ 1 < q /\ Z.odd q = true /\ q <> 2 ^ (w - 1) - 1.
Lemma oseq_map {A B} (f : A -> option B) (g : A -> B) l : (forall x, In x l -> f x = Some (g x)) -> oseq (map f l) = Some (map g l).
Proof. induction l as [|a l IH]; intros H; simpl; auto. rewrite (H a) by (left; auto). cbn [bind]. rewrite IH; auto. intros. apply H. right. auto. Qed.
Lemma convert_ok n w src tgt X : (1 <= length src <= 2)%nat -> (forall q, In q src -> good_modulus w q) ->
  (forall q, In q tgt -> good_modulus w q) -> verify_rns src = true ->
  convert_elt n w src tgt (prns n src X) = Some (prns n tgt (pcentre n (modulus_product src) X)).
Proof.
  intros HL Hs Ht Hv. unfold convert_elt.
  assert (HP : 0 < modulus_product src).
  { apply modulus_pos. apply Forall_forall. intros q Hq. destruct (Hs q Hq) as (_ & ? & _). lia. }
  assert (HO : Z.odd (modulus_product src) = true).
  { apply modulus_odd. intros q Hq. apply (Hs q Hq). }
  rewrite (oseq_map _ (fun k => residues (centre (modulus_product src) (coef X k)) tgt)).
  - cbn [bind]. f_equal. unfold prns. rewrite <- (map_seq_nth 0 tgt) at 2. rewrite map_map.
    apply map_ext_in. intros j Hj. apply in_seq in Hj. unfold pres. rewrite map_map. apply map_ext_in. intros k Hk. apply in_seq in Hk.
    rewrite coef_pcentre by lia. unfold residues.
    rewrite (nth_indep _ 0 ((fun q => centre (modulus_product src) (coef X k) mod q) 0)) by (rewrite map_length; lia).
    rewrite (map_nth (fun q => centre (modulus_product src) (coef X k) mod q)). reflexivity.
  - intros k Hk. apply in_seq in Hk. destruct (centre_spec (modulus_product src) (coef X k) HP HO) as [C1 C2].
    rewrite <- (C08_convert_basis_partial w src tgt (centre (modulus_product src) (coef X k))); auto.
    + f_equal. unfold column, prns. rewrite map_map. apply map_ext_in. intros q Hq. rewrite coef_pres by lia.
      destruct (Hs q Hq) as (_ & ? & _).
      destruct (modulus_divide q src Hq) as [z Hz]. destruct C2 as [y Hy].
      assert (E : coef X k = centre (modulus_product src) (coef X k) + (y * z) * q).
      { rewrite <- Z.mul_assoc, <- Hz, <- Hy. ring. }
      rewrite E at 1. apply Z_mod_plus_full.
    + intros q Hq. destruct (Ht q Hq) as (? & _ & ? & _). auto.
Qed.

(** ** Mod-down *)
Lemma p_mod_q_ok w q ps acc : 1 < q < 2 ^ w -> 0 <= w -> 0 <= acc < q ->
  p_mod_q w q acc ps = Some ((acc * modulus_product ps) mod q).
Proof.
  intros Hq Hw. revert acc. induction ps as [|p ps IH]; intros acc Ha; cbn [p_mod_q].
  - change (modulus_product []) with 1. rewrite Z.mul_1_r, Z.mod_small by lia. reflexivity.
  - assert (Hp : 0 <= p mod q < q) by (apply Z.mod_pos_bound; lia).
    rewrite C11_modular_multiplication; try (unfold is_word; lia). cbn [bind].
    rewrite IH by (apply Z.mod_pos_bound; lia). f_equal. change (modulus_product (p :: ps)) with (p * modulus_product ps).
    rewrite Zmult_mod_idemp_l. rewrite (Z.mul_comm (acc * (p mod q))), Z.mul_assoc, Z.mul_comm.
    rewrite <- (Zmult_mod_idemp_l (p mod q)). rewrite Z.mod_mod by lia. rewrite Zmult_mod_idemp_l. f_equal. ring.
Qed.
Lemma p_inv_ok w q ps : good_modulus w q -> Z.gcd (modulus_product ps) q = 1 ->
  exists inv, p_inv w ps q = Some inv /\ (q | inv * modulus_product ps - 1).
Proof.
  intros (Ha & H1 & Ho & _) Hg. apply accepted_bound in Ha as [Hw Hb].
  assert (Hb' : 1 < q < 2 ^ w). { assert (2 ^ (w - 1) <= 2 ^ w) by (apply Z.pow_le_mono_r; lia). lia. }
  unfold p_inv. assert (W1 : wrap w 1 = 1) by (unfold wrap; apply Z.mod_small; lia). rewrite W1.
  rewrite p_mod_q_ok by lia. cbn [bind]. rewrite Z.mul_1_l.
  destruct (C10_multiplicative_inverse w q (modulus_product ps mod q)) as (y & E & HY & _); auto.
  { unfold is_word. lia. } { apply Z.mod_pos_bound. lia. }
  rewrite E. cbn [bind]. destruct HY as [Hy1 Hy2].
  { rewrite Z.gcd_mod by lia. rewrite Z.gcd_comm. auto. }
  rewrite Z.mod_1_l in Hy2 by lia.
  destruct (Z.eqb_spec y 0) as [->|Hne]; [rewrite Z.mul_0_r, Zmod_0_l in Hy2; lia|].
  exists y. split; auto. rewrite Zmult_mod_idemp_l in Hy2.
  exists (modulus_product ps * y / q). pose proof (Z.div_mod (modulus_product ps * y) q ltac:(lia)). lia.
Qed.

Lemma prns_firstn n qs ps a : firstn (length qs) (prns n (qs ++ ps) a) = prns n qs a.
Proof. unfold prns. rewrite map_app. rewrite <- (map_length (fun q => pres n q a) qs) at 1. rewrite firstn_app, firstn_all, Nat.sub_diag. simpl. apply app_nil_r. Qed.
Lemma prns_skipn n qs ps a : skipn (length qs) (prns n (qs ++ ps) a) = prns n ps a.
Proof. unfold prns. rewrite map_app. rewrite <- (map_length (fun q => pres n q a) qs) at 1. rewrite skipn_app, skipn_all, Nat.sub_diag. reflexivity. Qed.

Definition pquot (n : nat) (P : Z) (X : list Z) : list Z := map (fun k => (coef X k - centre P (coef X k)) / P) (seq 0 n).
Lemma coef_pquot n P X k : (k < n)%nat -> coef (pquot n P X) k = (coef X k - centre P (coef X k)) / P.
Proof. intros. apply coef_map. auto. Qed.
Lemma pquot_spec n P X k : 0 < P -> Z.odd P = true -> (k < n)%nat ->
  P * coef (pquot n P X) k = coef X k - coef (pcentre n P X) k.
Proof.
  intros HP HO Hk. rewrite coef_pquot, coef_pcentre by auto. destruct (centre_spec P (coef X k) HP HO) as [_ [z Hz]].
  rewrite Hz, Z.div_mul by lia. ring.
Qed.

Lemma scaled_limb n q inv P x : 0 < q -> (q | inv * P - 1) -> 0 < P -> Z.odd P = true ->
  reduced q (pscale n inv (reduced q (psub n (pres n q x) (pres n q (pcentre n P x))))) = pres n q (pquot n P x).
Proof.
  intros Hq [z Hz] HP HO. apply reduced_pres; auto; [apply len_map_seq|]. intros k Hk.
  rewrite coef_pscale, coef_reduced, coef_psub, !coef_pres by auto.
  pose proof (pquot_spec n P x k HP HO Hk) as E. rewrite <- Zminus_mod.
  set (d := coef x k - coef (pcentre n P x) k) in *. set (y := coef (pquot n P x) k) in *.
  pose proof (Z.div_mod d q ltac:(lia)). exists (z * y - inv * (d / q)). 
  replace (d mod q) with (P * y - q * (d / q)) by lia.
  replace (inv * (P * y - q * (d / q)) - y) with ((inv * P - 1) * y - inv * (d / q) * q) by ring. rewrite Hz. ring.
Qed.
Lemma scaled_elt n qs invs P x : Forall (fun q => 0 < q) qs ->
  Forall2 (fun q inv => (q | inv * P - 1)) qs invs -> 0 < P -> Z.odd P = true ->
  elt_scale n qs invs (elt_sub n qs (prns n qs x) (prns n qs (pcentre n P x))) = prns n qs (pquot n P x).
Proof.
  intros Hq HI HP HO. induction HI as [|q inv qs invs HI1 _ IH]; [reflexivity|]. inversion Hq; subst.
  unfold elt_sub, prns in *. cbn [map zip_limbs elt_scale]. f_equal; auto. apply scaled_limb; auto.
Qed.

Lemma coprime_sub a b : pw_coprime (a ++ b) -> pw_coprime a /\ pw_coprime b /\ (forall q r, In q a -> In r b -> Z.gcd q r = 1).
Proof.
  induction a as [|x a IH]; simpl; intros H.
  - split; auto. split; auto. intros q r [].
  - destruct H as [H1 H2]. destruct (IH H2) as (A & B & C). split; [split; auto; intros; apply H1; apply in_or_app; auto|].
    split; auto. intros q r [->|Hq] Hr; auto. apply H1. apply in_or_app. auto.
Qed.
Lemma coprime_verify l : pw_coprime l -> verify_rns l = true.
Proof.
  induction l as [|a l IH]; simpl; auto. intros [H1 H2]. rewrite IH by auto. rewrite andb_true_r. apply forallb_forall.
  intros r Hr. apply Z.eqb_eq. auto.
Qed.

Lemma nonempty_match {A B} (l : list A) (x : option B) : (1 <= length l)%nat -> match l with [] => None | _ :: _ => x end = x.
Proof. destruct l; simpl; [lia|auto]. Qed.
Section Down.
Variables (n : nat) (w : Z) (qs ps : list Z).
Hypothesis Hgood : forall q, In q (qs ++ ps) -> good_modulus w q.
Hypothesis Hco : pw_coprime (qs ++ ps).
Hypothesis Hlen : (1 <= length ps <= 2)%nat.
Let P := modulus_product ps.
Lemma qs_pos : Forall (fun q => 0 < q) qs.
Proof. apply Forall_forall. intros q Hq. destruct (Hgood q) as (_ & ? & _); [apply in_or_app; auto|lia]. Qed.
Lemma basis_pos : Forall (fun q => 0 < q) (qs ++ ps).
Proof. apply Forall_forall. intros q Hq. destruct (Hgood q Hq) as (_ & ? & _); lia. Qed.
Lemma P_pos : 0 < P.
Proof. apply modulus_pos. apply Forall_forall. intros q Hq. destruct (Hgood q) as (_ & ? & _); [apply in_or_app; auto|lia]. Qed.
Lemma P_odd : Z.odd P = true.
Proof. apply modulus_odd. intros q Hq. apply (Hgood q). apply in_or_app. auto. Qed.
Lemma invs_ok : exists invs, oseq (map (p_inv w ps) qs) = Some invs /\ Forall2 (fun q inv => (q | inv * P - 1)) qs invs.
Proof.
  destruct (coprime_sub qs ps Hco) as (_ & _ & HC).
  assert (H : forall q, In q qs -> good_modulus w q /\ Z.gcd (modulus_product ps) q = 1).
  { intros q Hq. split; [apply Hgood; apply in_or_app; auto|]. rewrite Z.gcd_comm. apply gcd_prodl. intros. auto. }
  clear HC Hco. induction qs as [|q l IH].
  - exists []. split; [reflexivity|constructor].
  - destruct (H q) as [G1 G2]; [left; auto|]. destruct (p_inv_ok w q ps G1 G2) as (inv & E & D).
    destruct IH as (invs & E' & D').
    { intros r Hr. apply Hgood. right. auto. } { intros r Hr. apply H. right. auto. }
    exists (inv :: invs). simpl. rewrite E. cbn [bind]. rewrite E'. cbn [bind]. split; [reflexivity|constructor; auto].
Qed.
Lemma mod_down_ok Xs : mod_down n w qs ps (map (prns n (qs ++ ps)) Xs) = Some (map (fun X => prns n qs (pquot n P X)) Xs).
Proof.
  unfold mod_down. rewrite (nonempty_match ps) by lia.
  destruct (coprime_sub qs ps Hco) as (_ & Hcp & _).
  rewrite map_map. rewrite (oseq_map _ (fun X => prns n qs (pcentre n P X))).
  2:{ intros X _. rewrite prns_skipn. apply convert_ok; auto.
      - intros q Hq. apply Hgood. apply in_or_app. auto.
      - intros q Hq. apply Hgood. apply in_or_app. auto.
      - apply coprime_verify. auto. }
  cbn [bind]. destruct invs_ok as (invs & E & D). rewrite E. cbn [bind]. f_equal.
  clear E. induction Xs as [|X Xs IH]; [reflexivity|]. cbn [map map2]. f_equal; auto.
  rewrite prns_firstn. apply scaled_elt; auto; [apply qs_pos|apply P_pos|apply P_odd].
Qed.
End Down.
