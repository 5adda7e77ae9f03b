(** C78: modulus reduction by the key-switch primes, key switching and relinearization, as decomposed
    by DecomposeLWEOps.cpp and DecomposeRelinearize.cpp, compute what the operations document. *)
From Coq Require Import ZArith List Bool Lia.
From Verif Require Import Words ModArith_Model ModArith_Proofs ModArith_Props RNS_Proofs Rlwe_Spec Rlwe_Model Rlwe_Ring Rlwe_Proofs Rlwe2_Proofs Rlwe3_Proofs.
Import ListNotations.
Open Scope Z_scope.

Lemma word_good w q : 1 <= w -> word_modulus w q -> good_modulus w q.
Proof.
  intros Hw [Ho Hq]. unfold good_modulus, accepted_type. rewrite verify_type_spec by lia. repeat split; auto; lia.
Qed.

(** Dividing by the product P of the key-switch primes: the output is, modulo each remaining modulus,
    the integer quotient nearest to X / P, for one or two key-switch primes. *)
Theorem C78_mod_down_partial n w qs ps Xs : 1 <= w -> (forall q, In q (qs ++ ps) -> word_modulus w q) -> coprimes (qs ++ ps) ->
  (1 <= length ps <= 2)%nat ->
  exists Ys, mod_down n w qs ps (map (prns n (qs ++ ps)) Xs) = Some (map (prns n qs) Ys) /\
    Forall2 (fun X Y => forall k, (k < n)%nat -> 2 * Z.abs (modulus_product ps * coef Y k - coef X k) < modulus_product ps) Xs Ys.
Proof.
  intros Hw Hm Hc Hl. assert (Hg : forall q, In q (qs ++ ps) -> good_modulus w q) by (intros; apply word_good; auto).
  exists (map (pquot n (modulus_product ps)) Xs). split.
  - rewrite (mod_down_ok n w qs ps Hg Hc Hl Xs). rewrite map_map. reflexivity.
  - pose proof (P_pos w qs ps Hg Hl) as HP. pose proof (P_odd w qs ps Hg) as HO.
    induction Xs as [|X Xs IH]; constructor; auto. intros k Hk. rewrite pquot_spec by auto. rewrite coef_pcentre by auto.
    destruct (centre_spec (modulus_product ps) (coef X k) HP HO) as [Hb _]. lia.
Qed.
Print Assumptions C78_mod_down_partial.
Example C78_mod_down_nonvacuous :
  (forall q, In q ([11; 13] ++ [17; 97]) -> word_modulus 16 q) /\ coprimes ([11; 13] ++ [17; 97]) /\
  mod_down 2 16 [11; 13] [17; 97] (map (prns 2 ([11; 13] ++ [17; 97])) [[20000; -9000]]) = Some (map (prns 2 [11; 13]) [[12; -5]]).
Proof.
  split; [|split].
  - intros q [<-|[<-|[<-|[<-|[]]]]]; split; try reflexivity; simpl; lia.
  - simpl. repeat split; intros r Hr; repeat (destruct Hr as [<-|Hr]; [reflexivity|]); destruct Hr.
  - reflexivity.
Qed.

(** With three key-switch primes the quotient is wrong. *)
Theorem C78_three_primes_refuted : exists n w qs ps X out,
  (forall q, In q (qs ++ ps) -> word_modulus w q) /\ coprimes (qs ++ ps) /\ length ps = 3%nat /\
  mod_down n w qs ps [prns n (qs ++ ps) X] = Some [out] /\
  forall Y, (forall k, (k < n)%nat -> 2 * Z.abs (modulus_product ps * coef Y k - coef X k) < modulus_product ps) -> out <> prns n qs Y.
Proof.
  exists 2%nat, 8, [11], [3; 5; 7], [2; 0]. eexists. split; [|split; [|split; [|split]]].
  - intros q [<-|[<-|[<-|[<-|[]]]]]; split; try reflexivity; simpl; lia.
  - simpl. repeat split; intros r Hr; repeat (destruct Hr as [<-|Hr]; [reflexivity|]); destruct Hr.
  - reflexivity.
  - vm_compute. reflexivity.
  - intros Y H E. specialize (H 0%nat ltac:(lia)). change (modulus_product [3; 5; 7]) with 105 in H. change (coef [2; 0] 0) with 2 in H.
    assert (HY : coef Y 0 = 0) by lia. injection E as E1 _. cbn [seq map] in E1. rewrite HY in E1. discriminate E1.
Qed.
Print Assumptions C78_three_primes_refuted.

(** Key switching: from a key-switching key from s_in to s_out, the two output polynomials c0, c1
    stand under s_out for C * s_in plus a noise v bounded by the noise of the key. *)
Theorem C78_key_switch_partial n w subs ps s_in s_out B Sb key C :
  1 <= w -> (forall q, In q (concat subs ++ ps) -> word_modulus w q) -> coprimes (concat subs ++ ps) ->
  (1 <= length ps <= 2)%nat -> chunks (length ps) subs -> subs <> [] ->
  switching_key n subs ps s_in s_out B key -> bounded n Sb s_out ->
  exists c0 c1 v,
    key_switch n w (concat subs) ps (prns n (concat subs) C)
      (map (fun k => Tensor [prns n (concat subs ++ ps) (part_b k); prns n (concat subs ++ ps) (part_a k)]) key) =
      Some (prns n (concat subs) c0, prns n (concat subs) c1) /\
    (forall q, In q (concat subs) -> pcong n q (phase n s_out [c0; c1]) (padd n (pmul n C s_in) v)) /\
    (forall k, (k < n)%nat -> 2 * modulus_product ps * Z.abs (coef v k) <=
       Z.of_nat n * B * total (map modulus_product subs) + modulus_product ps * (1 + Z.of_nat n * Sb)).
Proof.
  intros Hw Hm Hc Hl Hch Hne Hk HS. assert (Hg : forall q, In q (concat subs ++ ps) -> good_modulus w q) by (intros; apply word_good; auto).
  eexists. eexists. eexists. split; [|split].
  - apply (switch_run n w subs ps s_in s_out B key C Hg Hc Hl Hch Hne Hk).
  - intros q Hq. eapply (switch_phase n w subs ps s_in s_out B key C); eauto.
  - intros k Hk'. eapply (switch_noise n w subs ps s_in s_out B Sb key C); eauto.
Qed.
Print Assumptions C78_key_switch_partial.

(** Relinearization: the two-component result stands under s for the same value as the
    three-component input, plus that noise, when the key switches from s * s to s. *)
Theorem C78_relinearize_partial n w subs ps s B Sb key C0 C1 C2 :
  1 <= w -> (forall q, In q (concat subs ++ ps) -> word_modulus w q) -> coprimes (concat subs ++ ps) ->
  (1 <= length ps <= 2)%nat -> chunks (length ps) subs -> subs <> [] ->
  switching_key n subs ps (pmul n s s) s B key -> bounded n Sb s ->
  exists d0 d1 v,
    relinearize n w (concat subs) ps (map (prns n (concat subs)) [C0; C1; C2])
      (map (fun k => Tensor [prns n (concat subs ++ ps) (part_b k); prns n (concat subs ++ ps) (part_a k)]) key) =
      Some (map (prns n (concat subs)) [d0; d1]) /\
    (forall q, In q (concat subs) -> pcong n q (phase n s [d0; d1]) (padd n (phase n s [C0; C1; C2]) v)) /\
    (forall k, (k < n)%nat -> 2 * modulus_product ps * Z.abs (coef v k) <=
       Z.of_nat n * B * total (map modulus_product subs) + modulus_product ps * (1 + Z.of_nat n * Sb)).
Proof.
  intros Hw Hm Hc Hl Hch Hne Hk HS.
  destruct (C78_key_switch_partial n w subs ps (pmul n s s) s B Sb key C2 Hw Hm Hc Hl Hch Hne Hk HS) as (c0 & c1 & v & E & Hp & Hv).
  assert (Hg : forall q, In q (concat subs ++ ps) -> good_modulus w q) by (intros; apply word_good; auto).
  assert (Hpos : Forall (fun q => 0 < q) (concat subs)) by (apply (qs_pos w (concat subs) ps Hg Hl)).
  exists (padd n c0 C0), (padd n c1 C1), v. split; [|split; [|exact Hv]].
  - unfold relinearize. cbn [map]. rewrite E. cbn [bind fst snd map2]. rewrite !elt_add_prns by auto. reflexivity.
  - intros q Hq. specialize (Hp q Hq). eapply Forall_forall in Hpos; [|exact Hq].
    apply pc_pcong; [lia|]. apply pc_pcong in Hp; [|lia]. revert Hp. apply relin_algebra.
Qed.
Print Assumptions C78_relinearize_partial.

(** two pieces of one modulus each, one key-switch prime, degree 2 *)
Definition ex_key (g : Z) (a e : list Z) : key_part :=
  KeyPart g (psub 2 (padd 2 e (pscale 2 (193 * g) (pmul 2 [1; -1] [1; -1]))) (pmul 2 [1; -1] a)) a e.
Definition ex_keys := [ex_key 970 [12345; 777] [1; -1]; ex_key 680 [4321; 99] [0; 1]].
Example C78_nonvacuous :
  (forall q, In q (concat [[17]; [97]] ++ [193]) -> word_modulus 16 q) /\ coprimes (concat [[17]; [97]] ++ [193]) /\
  chunks 1 [[17]; [97]] /\ bounded 2 1 [1; -1] /\
  switching_key 2 [[17]; [97]] [193] (pmul 2 [1; -1] [1; -1]) [1; -1] 1 ex_keys /\
  relinearize 2 16 [17; 97] [193] (map (prns 2 [17; 97]) [[100; 3]; [5; 7]; [-400; 801]])
    (map (fun k => Tensor [prns 2 [17; 97; 193] (part_b k); prns 2 [17; 97; 193] (part_a k)]) ex_keys) =
  Some (map (prns 2 [17; 97]) [[766; 311]; [227; 721]]).
Proof.
  split; [|split; [|split; [|split; [|split]]]].
  - intros q [<-|[<-|[<-|[]]]]; split; try reflexivity; simpl; lia.
  - simpl. repeat split; intros r Hr; repeat (destruct Hr as [<-|Hr]; [reflexivity|]); destruct Hr.
  - simpl. lia.
  - intros [|[|k]] Hk; simpl; lia.
  - split; [reflexivity|]. intros [|[|i]] part Hi; [| |destruct i; discriminate Hi];
      apply (f_equal (fun o => match o with Some x => x | None => part end)) in Hi; cbn [nth_error ex_keys] in Hi; subst part;
      (split; [intros [|[|k]] Hk; [reflexivity|reflexivity|lia]|split; [intros [|[|k]] Hk; simpl; lia|]]);
      intros [|[|j]] sub q Hj Hq; try (destruct j; discriminate Hj);
      injection Hj as <-; destruct Hq as [<-|[]]; reflexivity.
  - vm_compute. reflexivity.
Qed.
