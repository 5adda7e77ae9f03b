(** Congruence modulo [n] as a rewriting relation (proof helper). *)
From Coq Require Import ZArith Lia Setoid Morphisms.
Open Scope Z_scope.

Definition cong (n a b : Z) : Prop := exists k, a = b + k * n.

#[export] Instance cong_equiv n : Equivalence (cong n).
Proof.
  split.
  - intros a. exists 0. lia.
  - intros a b [k H]. exists (- k). lia.
  - intros a b c [k H] [l H']. exists (k + l). lia.
Qed.
#[export] Instance cong_add n : Proper (cong n ==> cong n ==> cong n) Z.add.
Proof. intros a a' [k H] b b' [l H']. exists (k + l). lia. Qed.
#[export] Instance cong_sub n : Proper (cong n ==> cong n ==> cong n) Z.sub.
Proof. intros a a' [k H] b b' [l H']. exists (k - l). lia. Qed.
#[export] Instance cong_opp n : Proper (cong n ==> cong n) Z.opp.
Proof. intros a a' [k H]. exists (- k). lia. Qed.
#[export] Instance cong_mul n : Proper (cong n ==> cong n ==> cong n) Z.mul.
Proof.
  intros a a' [k H] b b' [l H']. exists (a' * l + k * b' + k * l * n). subst. ring.
Qed.
Lemma cong_pow n a b e : 0 <= e -> cong n a b -> cong n (a ^ e) (b ^ e).
Proof.
  intros He H. pattern e. apply natlike_ind; auto.
  - reflexivity.
  - intros x Hx IH. rewrite !Z.pow_succ_r by auto. rewrite IH, H. reflexivity.
Qed.
#[export] Instance cong_pow_proper n : Proper (cong n ==> eq ==> cong n) Z.pow.
Proof.
  intros a b H e e' <-. destruct (Z.leb_spec 0 e).
  - apply cong_pow; auto.
  - rewrite !Z.pow_neg_r by auto. reflexivity.
Qed.

Lemma cong_mod n a : cong n (a mod n) a.
Proof.
  destruct (Z.eq_dec n 0) as [-> |Hn].
  - rewrite Zmod_0_r. reflexivity.
  - exists (- (a / n)). pose proof (Z.div_mod a n Hn). lia.
Qed.
Lemma cong_eq n a b : cong n a b -> a mod n = b mod n.
Proof. intros [k ->]. apply Z_mod_plus_full. Qed.
Lemma eq_cong n a b : a mod n = b mod n -> cong n a b.
Proof. intros H. rewrite <- (cong_mod n a), H. apply cong_mod. Qed.
Lemma cong_iff n a b : cong n a b <-> a mod n = b mod n.
Proof. split; [apply cong_eq|apply eq_cong]. Qed.
Lemma cong_small n a b : cong n a b -> 0 <= b < n -> a mod n = b.
Proof. intros H Hb. rewrite (cong_eq _ _ _ H). apply Z.mod_small; auto. Qed.
Lemma cong_n n : cong n n 0.
Proof. exists 1. lia. Qed.
Lemma cong_divide n a b : cong n a b <-> (n | a - b).
Proof. split; intros [k H]; exists k; lia. Qed.
Lemma cong_unique n a b : cong n a b -> 0 <= a < n -> 0 <= b < n -> a = b.
Proof. intros [k H] Ha Hb. assert (k = 0) by nia. lia. Qed.
