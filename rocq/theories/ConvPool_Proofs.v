(** Proofs about the fusion of convolutions and poolings. *)
From Coq Require Import List Bool ZArith Lia Ring.
From Verif Require Import Kernel_Model Conv_Spec Conv_Proofs ConvPool_Spec ConvPool_Model.
Import ListNotations.
Local Open Scope Z_scope.

Section Proofs.
  Variable K : cring.
  Notation "x +r y" := (radd K x y) (at level 50, left associativity).
  Notation "x *r y" := (rmul K x y) (at level 40, left associativity).
  Add Ring Kring2 : (r_ok K).
  Definition at_ (l : list K) (i : Z) : K := nth (Z.to_nat i) l (r0 K).

  Lemma put_length l n v : length (put K l n v) = length l.
  Proof. revert n. induction l as [|a l IH]; intros [|n]; cbn; auto. Qed.
  Lemma put_nth l n m v d : (n < length l)%nat -> nth m (put K l n v) d = if Nat.eqb m n then v else nth m l d.
  Proof.
    revert n m. induction l as [|a l IH]; intros n m H; [cbn in H; lia|]. destruct n as [|n], m as [|m]; cbn [put nth Nat.eqb]; try reflexivity.
    apply IH. cbn in H. lia.
  Qed.
  Lemma write_ok l i v : 0 <= i < Z.of_nat (length l) -> exists l', write K l i v = Some l' /\ length l' = length l /\
    forall j, 0 <= j -> at_ l' j = if j =? i then v else at_ l j.
  Proof.
    intros H. unfold write. replace ((i <? 0) || _) with false by (symmetry; apply orb_false_iff; split; [apply Z.ltb_ge|apply Z.leb_gt]; lia).
    eexists. split; [reflexivity|]. split; [apply put_length|]. intros j Hj. unfold at_. rewrite put_nth by lia.
    destruct (Z.eqb_spec j i) as [->|N]; [now rewrite Nat.eqb_refl|]. destruct (Nat.eqb_spec (Z.to_nat j) (Z.to_nat i)); [lia|reflexivity].
  Qed.
  Lemma read_ok l i : 0 <= i < Z.of_nat (length l) -> read K l i = Some (at_ l i).
  Proof.
    intros H. unfold read, at_. replace (i <? 0) with false by (symmetry; apply Z.ltb_ge; lia). apply nth_error_nth'. lia.
  Qed.
  Lemma at_repeat n i : at_ (repeat (r0 K) n) i = r0 K.
  Proof. unfold at_. destruct (Nat.lt_ge_cases (Z.to_nat i) n); [now rewrite nth_repeat|]. apply nth_overflow. now rewrite repeat_length. Qed.

  (** Loops that add to elements *)
  Definition adds (n : Z) (body : list K -> option (list K)) (g : Z -> K) : Prop :=
    forall s, Z.of_nat (length s) = n -> exists s', body s = Some s' /\ Z.of_nat (length s') = n /\ forall i, 0 <= i < n -> at_ s' i = at_ s i +r g i.
  Lemma adds_ext n body g g' : (forall i, 0 <= i < n -> g i = g' i) -> adds n body g -> adds n body g'.
  Proof. intros E H s L. destruct (H s L) as (s' & A & B & C). exists s'. split; [easy|]. split; [easy|]. intros i I. rewrite <- E by easy. auto. Qed.
  Lemma for_each_adds {A} n (l : list A) body g : (forall a, In a l -> adds n (body a) (g a)) ->
    adds n (for_each l body) (fun i => ksum K l (fun a => g a i)).
  Proof.
    induction l as [|a l IH]; intros H s L.
    - exists s. split; [reflexivity|]. split; [easy|]. intros i _. cbn. ring.
    - destruct (H a (or_introl eq_refl) s L) as (s1 & E1 & L1 & V1). destruct (IH (fun b I => H b (or_intror I)) s1 L1) as (s2 & E2 & L2 & V2).
      exists s2. cbn [for_each]. rewrite E1. split; [easy|]. split; [easy|]. intros i I. rewrite V2, V1 by easy. cbn [ksum]. ring.
  Qed.
  (** Loops that set elements *)
  Definition sets (n : Z) (body : list K -> option (list K)) (hit : Z -> Prop) (v : Z -> K) : Prop :=
    forall s, Z.of_nat (length s) = n -> exists s', body s = Some s' /\ Z.of_nat (length s') = n /\
      forall i, 0 <= i < n -> (hit i /\ at_ s' i = v i) \/ (~ hit i /\ at_ s' i = at_ s i).
  Lemma for_each_sets {A} n (l : list A) body hit v : (forall a, In a l -> sets n (body a) (hit a) v) ->
    sets n (for_each l body) (fun i => exists a, In a l /\ hit a i) v.
  Proof.
    induction l as [|a l IH]; intros H s L.
    - exists s. split; [reflexivity|]. split; [easy|]. intros i _. right. split; [|easy]. now intros (a & [] & _).
    - destruct (H a (or_introl eq_refl) s L) as (s1 & E1 & L1 & V1). destruct (IH (fun b I => H b (or_intror I)) s1 L1) as (s2 & E2 & L2 & V2).
      exists s2. cbn [for_each]. rewrite E1. split; [easy|]. split; [easy|]. intros i I.
      destruct (V2 i I) as [[(b & Ib & Hb) E]|[N E]].
      + left. split; [|easy]. exists b. split; [now right|easy].
      + destruct (V1 i I) as [[Ha E']|[Na E']].
        * left. split; [exists a; split; [now left|easy]|]. now rewrite E.
        * right. split; [|now rewrite E]. intros (b & [<-|Ib] & Hb); [easy|]. apply N. now exists b.
  Qed.
  Lemma sets_none n : forall v, sets n Some (fun _ => False) v.
  Proof. intros v s L. exists s. split; [easy|]. split; [easy|]. intros i _. now right. Qed.
  Lemma sets_write n i w v : 0 <= i < n -> v i = w -> sets n (fun s => write K s i w) (fun j => j = i) v.
  Proof.
    intros H E s L. destruct (write_ok s i w) as (s' & A & B & C); [lia|]. exists s'. split; [easy|]. split; [lia|].
    intros j J. rewrite C by lia. destruct (Z.eqb_spec j i) as [->|N]; [left|right]; easy.
  Qed.

  (** Sums *)
  Lemma ksum_prod {A B} (l : list A) (m : list B) f : ksum K (list_prod l m) f = ksum K l (fun a => ksum K m (fun b => f (a, b))).
  Proof. induction l as [|a l IH]; [reflexivity|]. cbn [list_prod ksum]. now rewrite ksum_app, ksum_map, IH. Qed.
  Lemma ksum_mul_l {A} (l : list A) f y : y *r ksum K l f = ksum K l (fun a => y *r f a).
  Proof. replace (y *r ksum K l f) with (ksum K l f *r y) by ring. rewrite ksum_mul. apply ksum_ext. intros. ring. Qed.
  Lemma nodup_prod {A B} (l : list A) (m : list B) : NoDup l -> NoDup m -> NoDup (list_prod l m).
  Proof.
    intros N M. assert (E : list_prod l m = flat_map (fun a => map (pair a) m) l) by (clear; induction l as [|a l IH]; [reflexivity|]; cbn; now rewrite IH).
    rewrite E. apply nodup_flat; [|easy|easy]. intros a b a' b' H. now injection H.
  Qed.
  Lemma pick H W (X : Z -> Z -> K) U V a : 0 <= U < H -> 0 <= V < W ->
    ksum K (upto H) (fun u => ksum K (upto W) (fun v => X u v *r (if (U =? u) && (V =? v) then a else r0 K))) = X U V *r a.
  Proof.
    intros HU HV. rewrite (ksum_single K (upto H) _ U); [|apply nodup_upto|now apply in_upto|].
    - rewrite (ksum_single K (upto W) _ V); [|apply nodup_upto|now apply in_upto|].
      + now rewrite !Z.eqb_refl.
      + intros b _ N. replace (V =? b) with false by (symmetry; apply Z.eqb_neq; congruence). rewrite andb_false_r. ring.
    - intros b _ N. apply ksum_zero. intros v _. replace (U =? b) with false by (symmetry; apply Z.eqb_neq; congruence). cbn [andb]. ring.
  Qed.
  Lemma pick_all {A} (keys : list A) H W (X : Z -> Z -> K) U V a : (forall k, In k keys -> 0 <= U k < H /\ 0 <= V k < W) ->
    ksum K (upto H) (fun u => ksum K (upto W) (fun v => X u v *r ksum K keys (fun k => if (U k =? u) && (V k =? v) then a k else r0 K))) =
    ksum K keys (fun k => X (U k) (V k) *r a k).
  Proof.
    intros Hk. transitivity (ksum K keys (fun k => ksum K (upto H) (fun u => ksum K (upto W) (fun v => X u v *r (if (U k =? u) && (V k =? v) then a k else r0 K))))).
    - transitivity (ksum K (upto H) (fun u => ksum K keys (fun k => ksum K (upto W) (fun v => X u v *r (if (U k =? u) && (V k =? v) then a k else r0 K))))).
      + apply ksum_ext. intros u _. rewrite <- ksum_swap. apply ksum_ext. intros v _. apply ksum_mul_l.
      + apply ksum_swap.
    - apply ksum_ext. intros k Ik. apply pick; now apply Hk.
  Qed.

  (** Flat positions *)
  Lemma flat4 F C H W f c u v : 0 <= f < F -> 0 <= c < C -> 0 <= u < H -> 0 <= v < W -> 0 <= ((f * C + c) * H + u) * W + v < F * C * H * W.
  Proof. intros. apply flat_range; [|easy]. apply flat_range; [|easy]. now apply flat_range. Qed.
  Lemma flat4_inj C H W f c u v f' c' u' v' : 0 <= c < C -> 0 <= u < H -> 0 <= v < W -> 0 <= c' < C -> 0 <= u' < H -> 0 <= v' < W ->
    ((f * C + c) * H + u) * W + v = ((f' * C + c') * H + u') * W + v' -> f = f' /\ c = c' /\ u = u' /\ v = v'.
  Proof.
    intros Hc Hu Hv Hc' Hu' Hv' E. apply split_index in E; [|easy|easy]. destruct E as [E ->]. apply split_index in E; [|easy|easy]. destruct E as [E ->].
    apply split_index in E; [|easy|easy]. now destruct E as [-> ->].
  Qed.

  (** ** Fused filters *)
  Section Fused.
    Variables (conv : conv_params) (pool : pool_params).
    Hypothesis (HkH : 1 <= ckH conv) (HkW : 1 <= ckW conv) (HpH : 1 <= pH pool) (HpW : 1 <= pW pool)
      (HF : 0 <= cF conv) (HC : 0 <= cC conv)
      (HsH : 1 <= cstrideH conv) (HsW : 1 <= cstrideW conv) (HdH : 1 <= cdilationH conv) (HdW : 1 <= cdilationW conv)
      (HeH : 1 <= pdilationH pool) (HeW : 1 <= pdilationW pool).
    Definition keys := list_prod (list_prod (upto (pH pool)) (upto (pW pool))) (list_prod (upto (ckH conv)) (upto (ckW conv))).
    Definition key := ((Z * Z) * (Z * Z))%type.
    Definition key_u (k : key) := fst (fst k) * pdilationH pool * cstrideH conv + fst (snd k) * cdilationH conv.
    Definition key_v (k : key) := snd (fst k) * pdilationW pool * cstrideW conv + snd (snd k) * cdilationW conv.
    Notation EH := (effective_height conv pool).
    Notation EW := (effective_width conv pool).
    Lemma in_keys k : In k keys -> 0 <= fst (fst k) < pH pool /\ 0 <= snd (fst k) < pW pool /\ 0 <= fst (snd k) < ckH conv /\ 0 <= snd (snd k) < ckW conv.
    Proof.
      destruct k as [[a b] [c d]]. unfold keys. rewrite !in_prod_iff, !in_upto. cbn [fst snd]. tauto.
    Qed.
    Lemma bound2 p P d s k M e : 0 <= p < P -> 0 <= k < M -> 1 <= d -> 1 <= s -> 1 <= e -> 0 <= p * d * s + k * e < (P - 1) * d * s + (M - 1) * e + 1.
    Proof.
      intros. assert (0 <= p * d * s <= (P - 1) * d * s) by (split; [apply Z.mul_nonneg_nonneg; [apply Z.mul_nonneg_nonneg|]; lia|
        apply Z.mul_le_mono_nonneg_r; [lia|apply Z.mul_le_mono_nonneg_r; lia]]).
      assert (0 <= k * e <= (M - 1) * e) by (split; [apply Z.mul_nonneg_nonneg; lia|apply Z.mul_le_mono_nonneg_r; lia]). lia.
    Qed.
    Lemma key_bounds k : In k keys -> 0 <= key_u k < EH /\ 0 <= key_v k < EW.
    Proof. intros I. apply in_keys in I. unfold key_u, key_v, effective_height, effective_width. split; apply bound2; tauto. Qed.

    Lemma fused_entries values (scale : K -> K) : Z.of_nat (length values) = cF conv * cC conv * ckH conv * ckW conv ->
      exists l, fuse_filters K values conv pool scale = Some l /\ Z.of_nat (length l) = cF conv * cC conv * EH * EW /\
      forall f c u v, 0 <= f < cF conv -> 0 <= c < cC conv -> 0 <= u < EH -> 0 <= v < EW ->
        entry4 K (cC conv) EH EW l f c u v =
        ksum K keys (fun k => if (key_u k =? u) && (key_v k =? v) then scale (entry4 K (cC conv) (ckH conv) (ckW conv) values f c (fst (snd k)) (snd (snd k))) else r0 K).
    Proof.
      intros L. set (N := cF conv * cC conv * EH * EW).
      assert (HN : 0 <= N).
      { unfold N. assert (0 <= EH) by (unfold effective_height; assert (0 <= (pH pool - 1) * pdilationH pool * cstrideH conv) by (repeat apply Z.mul_nonneg_nonneg; lia);
          assert (0 <= (ckH conv - 1) * cdilationH conv) by (apply Z.mul_nonneg_nonneg; lia); lia).
        assert (0 <= EW) by (unfold effective_width; assert (0 <= (pW pool - 1) * pdilationW pool * cstrideW conv) by (repeat apply Z.mul_nonneg_nonneg; lia);
          assert (0 <= (ckW conv - 1) * cdilationW conv) by (apply Z.mul_nonneg_nonneg; lia); lia).
        repeat apply Z.mul_nonneg_nonneg; lia. }
      set (dst := fun f c (k : key) => ((f * cC conv + c) * EH + key_u k) * EW + key_v k).
      set (val := fun f c (k : key) => scale (entry4 K (cC conv) (ckH conv) (ckW conv) values f c (fst (snd k)) (snd (snd k)))).
      match goal with |- exists l, ?x = _ /\ _ => set (run := x) end.
      assert (A : exists l, run = Some l /\ Z.of_nat (length l) = N /\ forall i, 0 <= i < N ->
        at_ l i = at_ (repeat (r0 K) (Z.to_nat N)) i +r ksum K (upto (cF conv)) (fun f => ksum K (upto (cC conv)) (fun c =>
          ksum K (upto (pH pool)) (fun ph => ksum K (upto (pW pool)) (fun pw => ksum K (upto (ckH conv)) (fun kh => ksum K (upto (ckW conv)) (fun kw =>
            if dst f c ((ph, pw), (kh, kw)) =? i then val f c ((ph, pw), (kh, kw)) else r0 K))))))).
      { unfold run, fuse_filters. fold N. cbv zeta.
        refine (for_each_adds N _ _ (fun f i => ksum K (upto (cC conv)) (fun c =>
          ksum K (upto (pH pool)) (fun ph => ksum K (upto (pW pool)) (fun pw => ksum K (upto (ckH conv)) (fun kh => ksum K (upto (ckW conv)) (fun kw =>
            if dst f c ((ph, pw), (kh, kw)) =? i then val f c ((ph, pw), (kh, kw)) else r0 K)))))) _ _ _); [|now rewrite repeat_length, Z2Nat.id].
        intros f Hf. apply in_upto in Hf.
        apply (for_each_adds N _ _ (fun c i => ksum K (upto (pH pool)) (fun ph => ksum K (upto (pW pool)) (fun pw => ksum K (upto (ckH conv)) (fun kh => ksum K (upto (ckW conv)) (fun kw =>
            if dst f c ((ph, pw), (kh, kw)) =? i then val f c ((ph, pw), (kh, kw)) else r0 K)))))). intros c Hc. apply in_upto in Hc.
        apply (for_each_adds N _ _ (fun ph i => ksum K (upto (pW pool)) (fun pw => ksum K (upto (ckH conv)) (fun kh => ksum K (upto (ckW conv)) (fun kw =>
            if dst f c ((ph, pw), (kh, kw)) =? i then val f c ((ph, pw), (kh, kw)) else r0 K))))). intros ph Hph.
        apply (for_each_adds N _ _ (fun pw i => ksum K (upto (ckH conv)) (fun kh => ksum K (upto (ckW conv)) (fun kw =>
            if dst f c ((ph, pw), (kh, kw)) =? i then val f c ((ph, pw), (kh, kw)) else r0 K)))). intros pw Hpw.
        apply (for_each_adds N _ _ (fun kh i => ksum K (upto (ckW conv)) (fun kw =>
            if dst f c ((ph, pw), (kh, kw)) =? i then val f c ((ph, pw), (kh, kw)) else r0 K))). intros kh Hkh.
        apply (for_each_adds N _ _ (fun kw i => if dst f c ((ph, pw), (kh, kw)) =? i then val f c ((ph, pw), (kh, kw)) else r0 K)). intros kw Hkw.
        assert (Ik : In ((ph, pw), (kh, kw)) keys) by (unfold keys; rewrite !in_prod_iff; tauto).
        destruct (key_bounds _ Ik) as [Bu Bv]. apply in_upto in Hkh, Hkw.
        assert (D : 0 <= dst f c ((ph, pw), (kh, kw)) < N) by (apply flat4; easy).
        intros s Ls.
        assert (S : 0 <= ((f * cC conv + c) * ckH conv + kh) * ckW conv + kw < cF conv * cC conv * ckH conv * ckW conv) by (apply flat4; easy).
        rewrite (read_ok values) by lia.
        change (((f * cC conv + c) * EH + (ph * pdilationH pool * cstrideH conv + kh * cdilationH conv)) * EW + (pw * pdilationW pool * cstrideW conv + kw * cdilationW conv))
          with (dst f c ((ph, pw), (kh, kw))).
        rewrite (read_ok s) by lia.
        destruct (write_ok s (dst f c ((ph, pw), (kh, kw))) (at_ s (dst f c ((ph, pw), (kh, kw))) +r scale (at_ values (((f * cC conv + c) * ckH conv + kh) * ckW conv + kw)))) as (s' & E & L' & V); [lia|].
        exists s'. split; [exact E|]. split; [lia|]. intros i Hi. rewrite V by lia. rewrite (Z.eqb_sym i).
        destruct (Z.eqb_spec (dst f c ((ph, pw), (kh, kw))) i) as [<-|Ne]; [reflexivity|ring]. }
      destruct A as (l & E & Ll & V). exists l. split; [easy|]. split; [easy|]. intros f c u v Hf Hc Hu Hv.
      unfold entry4 at 1. fold (at_ l (((f * cC conv + c) * EH + u) * EW + v)). rewrite V by now apply flat4.
      rewrite at_repeat.
      match goal with |- r0 K +r ?a = _ => replace (r0 K +r a) with a by ring end.
      rewrite (ksum_single K (upto (cF conv)) _ f); [|apply nodup_upto|now apply in_upto|].
      - rewrite (ksum_single K (upto (cC conv)) _ c); [|apply nodup_upto|now apply in_upto|].
        + unfold keys. rewrite !ksum_prod. apply ksum_ext. intros ph Hph. apply ksum_ext. intros pw Hpw. rewrite ksum_prod. apply ksum_ext. intros kh Hkh.
          apply ksum_ext. intros kw Hkw. assert (Ik : In ((ph, pw), (kh, kw)) keys) by (unfold keys; rewrite !in_prod_iff; tauto).
          destruct (key_bounds _ Ik) as [Bu Bv]. unfold val.
          destruct (Z.eqb_spec (key_u (ph, pw, (kh, kw))) u) as [Eu|Nu], (Z.eqb_spec (key_v (ph, pw, (kh, kw))) v) as [Ev|Nv]; cbn [andb];
            destruct (Z.eqb_spec (dst f c (ph, pw, (kh, kw))) (((f * cC conv + c) * EH + u) * EW + v)) as [Ed|Nd]; try reflexivity.
          * exfalso. apply Nd. unfold dst. now rewrite Eu, Ev.
          * exfalso. apply flat4_inj in Ed; [|easy..]. tauto.
          * exfalso. apply flat4_inj in Ed; [|easy..]. tauto.
          * exfalso. apply flat4_inj in Ed; [|easy..]. tauto.
        + intros c' Ic Nc. apply in_upto in Ic. apply ksum_zero. intros ph Hph. apply ksum_zero. intros pw Hpw. apply ksum_zero. intros kh Hkh. apply ksum_zero. intros kw Hkw.
          assert (Ik : In ((ph, pw), (kh, kw)) keys) by (unfold keys; rewrite !in_prod_iff; tauto). destruct (key_bounds _ Ik) as [Bu Bv].
          destruct (Z.eqb_spec (dst f c' (ph, pw, (kh, kw))) (((f * cC conv + c) * EH + u) * EW + v)) as [Ed|Nd]; [|easy].
          exfalso. apply flat4_inj in Ed; [|easy..]. tauto.
      - intros f' If Nf. apply ksum_zero. intros c' Ic. apply in_upto in Ic. apply ksum_zero. intros ph Hph. apply ksum_zero. intros pw Hpw. apply ksum_zero. intros kh Hkh. apply ksum_zero. intros kw Hkw.
        assert (Ik : In ((ph, pw), (kh, kw)) keys) by (unfold keys; rewrite !in_prod_iff; tauto). destruct (key_bounds _ Ik) as [Bu Bv].
        destruct (Z.eqb_spec (dst f' c' (ph, pw, (kh, kw))) (((f * cC conv + c) * EH + u) * EW + v)) as [Ed|Nd]; [|easy].
        exfalso. apply flat4_inj in Ed; [|easy..]. tauto.
    Qed.

    Lemma fused_conv_value values (scale : K -> K) s l : Z.of_nat (length values) = cF conv * cC conv * ckH conv * ckW conv ->
      (forall w, scale w = w *r s) -> fuse_filters K values conv pool scale = Some l ->
      forall x init pinit start f oh ow, 0 <= f < cF conv ->
      start f oh ow = pool2 K (pH pool) (pW pool) (pstrideH pool) (pstrideW pool) (pdilationH pool) (pdilationW pool) init pinit f oh ow *r s ->
      conv2 K (cC conv) EH EW (cstrideH conv * pstrideH pool) (cstrideW conv * pstrideW pool) 1 1 (entry4 K (cC conv) EH EW l) x start f oh ow =
      pool2 K (pH pool) (pW pool) (pstrideH pool) (pstrideW pool) (pdilationH pool) (pdilationW pool)
        (conv2 K (cC conv) (ckH conv) (ckW conv) (cstrideH conv) (cstrideW conv) (cdilationH conv) (cdilationW conv)
          (entry4 K (cC conv) (ckH conv) (ckW conv) values) x init) pinit f oh ow *r s.
    Proof.
      intros L Sc E x init pinit start f oh ow Hf Hs. destruct (fused_entries values scale L) as (l' & E' & _ & V). rewrite E in E'. injection E' as <-.
      set (W4 := entry4 K (cC conv) (ckH conv) (ckW conv) values) in *.
      unfold conv2 at 1. rewrite Hs.
      transitivity (pool2 K (pH pool) (pW pool) (pstrideH pool) (pstrideW pool) (pdilationH pool) (pdilationW pool) init pinit f oh ow *r s +r
        ksum K (upto (cC conv)) (fun c => ksum K keys (fun k =>
          x c (oh * (cstrideH conv * pstrideH pool) + key_u k) (ow * (cstrideW conv * pstrideW pool) + key_v k) *r (W4 f c (fst (snd k)) (snd (snd k)) *r s)))).
      { f_equal. apply ksum_ext. intros c Hc. apply in_upto in Hc.
        rewrite <- (pick_all keys EH EW (fun u v => x c (oh * (cstrideH conv * pstrideH pool) + u) (ow * (cstrideW conv * pstrideW pool) + v)) key_u key_v
          (fun k => W4 f c (fst (snd k)) (snd (snd k)) *r s) key_bounds).
        apply ksum_ext. intros u Hu. apply in_upto in Hu. apply ksum_ext. intros v Hv. apply in_upto in Hv. rewrite !Z.mul_1_r. f_equal.
        rewrite V by easy. apply ksum_ext. intros k _. now rewrite Sc. }
      unfold pool2, conv2.
      assert (P : ksum K (upto (pH pool)) (fun i => ksum K (upto (pW pool)) (fun j =>
          init f (oh * pstrideH pool + i * pdilationH pool) (ow * pstrideW pool + j * pdilationW pool) +r
          ksum K (upto (cC conv)) (fun c => ksum K (upto (ckH conv)) (fun i0 => ksum K (upto (ckW conv)) (fun j0 =>
            x c ((oh * pstrideH pool + i * pdilationH pool) * cstrideH conv + i0 * cdilationH conv) ((ow * pstrideW pool + j * pdilationW pool) * cstrideW conv + j0 * cdilationW conv)
            *r W4 f c i0 j0))))) =
        ksum K (upto (pH pool)) (fun i => ksum K (upto (pW pool)) (fun j => init f (oh * pstrideH pool + i * pdilationH pool) (ow * pstrideW pool + j * pdilationW pool))) +r
        ksum K (upto (cC conv)) (fun c => ksum K keys (fun k =>
          x c (oh * (cstrideH conv * pstrideH pool) + key_u k) (ow * (cstrideW conv * pstrideW pool) + key_v k) *r W4 f c (fst (snd k)) (snd (snd k))))).
      { rewrite (ksum_ext K (upto (pH pool)) _ (fun i => ksum K (upto (pW pool)) (fun j => init f (oh * pstrideH pool + i * pdilationH pool) (ow * pstrideW pool + j * pdilationW pool)) +r
          ksum K (upto (pW pool)) (fun j => ksum K (upto (cC conv)) (fun c => ksum K (upto (ckH conv)) (fun i0 => ksum K (upto (ckW conv)) (fun j0 =>
            x c ((oh * pstrideH pool + i * pdilationH pool) * cstrideH conv + i0 * cdilationH conv) ((ow * pstrideW pool + j * pdilationW pool) * cstrideW conv + j0 * cdilationW conv)
            *r W4 f c i0 j0)))))) by (intros i _; apply ksum_add).
        rewrite ksum_add. f_equal. rewrite (ksum_swap K (upto (cC conv)) keys). unfold keys at 1. rewrite ksum_prod, ksum_prod.
        apply ksum_ext. intros i _. apply ksum_ext. intros j _. rewrite (ksum_swap K (list_prod (upto (ckH conv)) (upto (ckW conv)))). apply ksum_ext. intros c _. rewrite ksum_prod.
        apply ksum_ext. intros i0 _. apply ksum_ext. intros j0 _. unfold key_u, key_v. cbn [fst snd]. f_equal. f_equal; ring. }
      rewrite P. clear P.
      rewrite (ksum_ext K (upto (cC conv)) _ (fun c => ksum K keys (fun k =>
          x c (oh * (cstrideH conv * pstrideH pool) + key_u k) (ow * (cstrideW conv * pstrideW pool) + key_v k) *r W4 f c (fst (snd k)) (snd (snd k))) *r s)).
      { rewrite <- ksum_mul. ring. }
      intros c _. rewrite ksum_mul. apply ksum_ext. intros k _. ring.
    Qed.
  End Fused.

  (** ** Undilated filters *)
  Lemma step_bound i k d : 0 <= i < k -> 1 <= d -> 0 <= i * d < d * (k - 1) + 1.
  Proof. intros. assert (i * d <= (k - 1) * d) by (apply Z.mul_le_mono_nonneg_r; lia). assert (0 <= i * d) by (apply Z.mul_nonneg_nonneg; lia). lia. Qed.
  Lemma digit q n r : 0 <= r < n -> (q * n + r) mod n = r /\ (q * n + r) / n = q.
  Proof. intros H. rewrite Z.add_comm, Z.mod_add, Z.div_add, Z.mod_small, Z.div_small by lia. lia. Qed.
  Lemma undilate2_entries F C kh kw dh dw input : 0 <= F -> 0 <= C -> 1 <= kh -> 1 <= kw -> 1 <= dh -> 1 <= dw -> (dh <> 1 \/ dw <> 1) ->
    Z.of_nat (length input) = F * C * kh * kw ->
    exists l, undilate2 K F C kh kw dh dw input = Some l /\ Z.of_nat (length l) = F * C * (dh * (kh - 1) + 1) * (dw * (kw - 1) + 1) /\
    forall f c u v, 0 <= f < F -> 0 <= c < C -> 0 <= u < dh * (kh - 1) + 1 -> 0 <= v < dw * (kw - 1) + 1 ->
      entry4 K C (dh * (kh - 1) + 1) (dw * (kw - 1) + 1) l f c u v =
      ksum K (list_prod (upto kh) (upto kw)) (fun k => if (fst k * dh =? u) && (snd k * dw =? v) then entry4 K C kh kw input f c (fst k) (snd k) else r0 K).
  Proof.
    intros HF HC Hkh Hkw Hdh Hdw Hd L. set (NH := dh * (kh - 1) + 1). set (NW := dw * (kw - 1) + 1). set (N := F * C * NH * NW).
    assert (0 <= NH) by (unfold NH; assert (0 <= dh * (kh - 1)) by (apply Z.mul_nonneg_nonneg; lia); lia).
    assert (0 <= NW) by (unfold NW; assert (0 <= dw * (kw - 1)) by (apply Z.mul_nonneg_nonneg; lia); lia).
    assert (HN : 0 <= N) by (unfold N; repeat apply Z.mul_nonneg_nonneg; lia).
    set (dst := fun f c i j => ((f * C + c) * NH + i * dh) * NW + j * dw).
    set (V := fun z => let v := z mod NW in let q := z / NW in let u := q mod NH in let p := q / NH in
      entry4 K C kh kw input (p / C) (p mod C) (u / dh) (v / dw)).
    assert (HV : forall f c i j, 0 <= f < F -> 0 <= c < C -> 0 <= i < kh -> 0 <= j < kw -> V (dst f c i j) = entry4 K C kh kw input f c i j).
    { intros f c i j Hf Hc Hi Hj. pose proof (step_bound i kh dh Hi Hdh) as Bi. pose proof (step_bound j kw dw Hj Hdw) as Bj. fold NH in Bi. fold NW in Bj.
      unfold V, dst. cbv zeta.
      destruct (digit (((f * C + c) * NH + i * dh)) NW (j * dw) Bj) as [-> ->]. destruct (digit (f * C + c) NH (i * dh) Bi) as [-> ->].
      destruct (digit f C c Hc) as [-> ->]. rewrite !Z.div_mul by lia. reflexivity. }
    assert (A : exists l, undilate2 K F C kh kw dh dw input = Some l /\ Z.of_nat (length l) = N /\ forall i, 0 <= i < N ->
      ((exists f, In f (upto F) /\ exists c, In c (upto C) /\ exists a, In a (upto kh) /\ exists b, In b (upto kw) /\ i = dst f c a b) /\ at_ l i = V i) \/
      (~ (exists f, In f (upto F) /\ exists c, In c (upto C) /\ exists a, In a (upto kh) /\ exists b, In b (upto kw) /\ i = dst f c a b) /\
       at_ l i = at_ (repeat (r0 K) (Z.to_nat N)) i)).
    { unfold undilate2. cbv zeta. fold NH NW. fold N.
      replace ((dh =? 1) && (dw =? 1)) with false by (symmetry; apply andb_false_iff; destruct Hd; [left|right]; now apply Z.eqb_neq).
      refine (for_each_sets N _ _ (fun f i => exists c, In c (upto C) /\ exists a, In a (upto kh) /\ exists b, In b (upto kw) /\ i = dst f c a b) V _ _ _);
        [|now rewrite repeat_length, Z2Nat.id]. intros f Hf.
      apply (for_each_sets N _ _ (fun c i => exists a, In a (upto kh) /\ exists b, In b (upto kw) /\ i = dst f c a b) V). intros c Hc.
      apply (for_each_sets N _ _ (fun a i => exists b, In b (upto kw) /\ i = dst f c a b) V). intros a Ha.
      apply (for_each_sets N _ _ (fun b i => i = dst f c a b) V). intros b Hb. apply in_upto in Hf, Hc, Ha, Hb.
      assert (S : 0 <= ((f * C + c) * kh + a) * kw + b < F * C * kh * kw) by (apply flat4; easy).
      rewrite (read_ok input) by lia. apply sets_write.
      - unfold N. apply flat4; try easy; now apply step_bound.
      - fold (dst f c a b). now rewrite HV. }
    destruct A as (l & E & Ll & D). exists l. split; [easy|]. split; [easy|]. intros f c u v Hf Hc Hu Hv.
    unfold entry4 at 1. fold (at_ l (((f * C + c) * NH + u) * NW + v)).
    destruct (D (((f * C + c) * NH + u) * NW + v)) as [[(f' & If & c' & Ic & a & Ia & b & Ib & Ei) ->]|[Nh ->]]; [now apply flat4|..].
    - apply in_upto in If, Ic, Ia, Ib. rewrite Ei, HV by easy. unfold dst in Ei. apply flat4_inj in Ei; [|try easy; now apply step_bound..].
      destruct Ei as (<- & <- & -> & ->).
      rewrite (ksum_single K _ _ (a, b)); [cbn [fst snd]; now rewrite !Z.eqb_refl|apply nodup_prod; apply nodup_upto|apply in_prod; now apply in_upto|].
      intros [a' b'] I Nab. cbn [fst snd]. destruct (Z.eqb_spec (a' * dh) (a * dh)) as [Ea|]; [|easy]. destruct (Z.eqb_spec (b' * dw) (b * dw)) as [Eb|]; [|easy].
      exfalso. apply Nab. apply Z.mul_cancel_r in Ea, Eb; [|lia..]. now subst.
    - rewrite at_repeat. symmetry. apply ksum_zero. intros [a b] I. cbn [fst snd]. apply in_prod_iff in I.
      destruct (Z.eqb_spec (a * dh) u) as [Ea|]; [|easy]. destruct (Z.eqb_spec (b * dw) v) as [Eb|]; [|easy]. exfalso. apply Nh.
      exists f. split; [now apply in_upto|]. exists c. split; [now apply in_upto|]. exists a. split; [easy|]. exists b. split; [easy|]. unfold dst. now subst.
  Qed.
  Lemma undilate2_value F C kh kw sh sw dh dw input l : 0 <= F -> 0 <= C -> 1 <= kh -> 1 <= kw -> 1 <= dh -> 1 <= dw ->
    Z.of_nat (length input) = F * C * kh * kw -> undilate2 K F C kh kw dh dw input = Some l ->
    forall x init f oh ow, 0 <= f < F ->
    conv2 K C (dh * (kh - 1) + 1) (dw * (kw - 1) + 1) sh sw 1 1 (entry4 K C (dh * (kh - 1) + 1) (dw * (kw - 1) + 1) l) x init f oh ow =
    conv2 K C kh kw sh sw dh dw (entry4 K C kh kw input) x init f oh ow.
  Proof.
    intros HF HC Hkh Hkw Hdh Hdw L E x init f oh ow Hf.
    destruct (undilate2_entries F C kh kw dh dw input HF HC Hkh Hkw Hdh Hdw) as (l' & E' & _ & V); [|easy|].
    { unfold undilate2 in E. destruct (Z.eqb_spec dh 1), (Z.eqb_spec dw 1); cbn [andb] in E; [discriminate E|now right|now left|now left]. }
    rewrite E in E'. injection E' as <-. unfold conv2. f_equal. apply ksum_ext. intros c Hc. apply in_upto in Hc.
    etransitivity; [|exact (ksum_prod (upto kh) (upto kw) (fun k => x c (oh * sh + fst k * dh) (ow * sw + snd k * dw) *r entry4 K C kh kw input f c (fst k) (snd k)))].
    rewrite <- (pick_all (list_prod (upto kh) (upto kw)) (dh * (kh - 1) + 1) (dw * (kw - 1) + 1) (fun u v => x c (oh * sh + u) (ow * sw + v))
      (fun k => fst k * dh) (fun k => snd k * dw) (fun k => entry4 K C kh kw input f c (fst k) (snd k))).
    - apply ksum_ext. intros u Hu. apply in_upto in Hu. apply ksum_ext. intros v Hv. apply in_upto in Hv. rewrite !Z.mul_1_r. now rewrite V.
    - intros [a b] I. apply in_prod_iff in I. destruct I as [Ia Ib]. apply in_upto in Ia, Ib. cbn [fst snd]. split; now apply step_bound.
  Qed.

  Lemma flat3 F C W f c v : 0 <= f < F -> 0 <= c < C -> 0 <= v < W -> 0 <= (f * C + c) * W + v < F * C * W.
  Proof. intros. apply flat_range; [|easy]. now apply flat_range. Qed.
  Lemma flat3_inj C W f c v f' c' v' : 0 <= c < C -> 0 <= v < W -> 0 <= c' < C -> 0 <= v' < W ->
    (f * C + c) * W + v = (f' * C + c') * W + v' -> f = f' /\ c = c' /\ v = v'.
  Proof. intros Hc Hv Hc' Hv' E. apply split_index in E; [|easy|easy]. destruct E as [E ->]. apply split_index in E; [|easy|easy]. now destruct E as [-> ->]. Qed.
  Lemma undilate1_entries F C kw d input : 0 <= F -> 0 <= C -> 1 <= kw -> 1 <= d -> d <> 1 -> Z.of_nat (length input) = F * C * kw ->
    exists l, undilate1 K F C kw d input = Some l /\ Z.of_nat (length l) = F * C * (d * (kw - 1) + 1) /\
    forall f c v, 0 <= f < F -> 0 <= c < C -> 0 <= v < d * (kw - 1) + 1 ->
      entry3 K C (d * (kw - 1) + 1) l f c v = ksum K (upto kw) (fun k => if k * d =? v then entry3 K C kw input f c k else r0 K).
  Proof.
    intros HF HC Hkw Hd1 Hd L. set (NW := d * (kw - 1) + 1). set (N := F * C * NW).
    assert (0 <= NW) by (unfold NW; assert (0 <= d * (kw - 1)) by (apply Z.mul_nonneg_nonneg; lia); lia).
    assert (HN : 0 <= N) by (unfold N; repeat apply Z.mul_nonneg_nonneg; lia).
    set (dst := fun f c j => (f * C + c) * NW + j * d).
    set (V := fun z => let v := z mod NW in let p := z / NW in entry3 K C kw input (p / C) (p mod C) (v / d)).
    assert (HV : forall f c j, 0 <= f < F -> 0 <= c < C -> 0 <= j < kw -> V (dst f c j) = entry3 K C kw input f c j).
    { intros f c j Hf Hc Hj. pose proof (step_bound j kw d Hj Hd1) as Bj. fold NW in Bj. unfold V, dst. cbv zeta.
      destruct (digit (f * C + c) NW (j * d) Bj) as [-> ->]. destruct (digit f C c Hc) as [-> ->]. rewrite !Z.div_mul by lia. reflexivity. }
    assert (A : exists l, undilate1 K F C kw d input = Some l /\ Z.of_nat (length l) = N /\ forall i, 0 <= i < N ->
      ((exists f, In f (upto F) /\ exists c, In c (upto C) /\ exists b, In b (upto kw) /\ i = dst f c b) /\ at_ l i = V i) \/
      (~ (exists f, In f (upto F) /\ exists c, In c (upto C) /\ exists b, In b (upto kw) /\ i = dst f c b) /\
       at_ l i = at_ (repeat (r0 K) (Z.to_nat N)) i)).
    { unfold undilate1, undilated_width. cbv zeta. fold NW. fold N. replace (d =? 1) with false by (symmetry; now apply Z.eqb_neq).
      refine (for_each_sets N _ _ (fun f i => exists c, In c (upto C) /\ exists b, In b (upto kw) /\ i = dst f c b) V _ _ _);
        [|now rewrite repeat_length, Z2Nat.id]. intros f Hf.
      apply (for_each_sets N _ _ (fun c i => exists b, In b (upto kw) /\ i = dst f c b) V). intros c Hc.
      apply (for_each_sets N _ _ (fun b i => i = dst f c b) V). intros b Hb. apply in_upto in Hf, Hc, Hb.
      replace (f * (C * kw) + c * kw + b) with ((f * C + c) * kw + b) by ring. replace (f * (C * NW) + c * NW + b * d) with (dst f c b) by (unfold dst; ring).
      assert (S : 0 <= (f * C + c) * kw + b < F * C * kw) by (apply flat3; easy).
      rewrite (read_ok input) by lia. apply sets_write.
      - unfold N. apply flat3; try easy; now apply step_bound.
      - now rewrite HV. }
    destruct A as (l & E & Ll & D). exists l. split; [easy|]. split; [easy|]. intros f c v Hf Hc Hv.
    unfold entry3 at 1. fold (at_ l ((f * C + c) * NW + v)).
    destruct (D ((f * C + c) * NW + v)) as [[(f' & If & c' & Ic & b & Ib & Ei) ->]|[Nh ->]]; [now apply flat3|..].
    - apply in_upto in If, Ic, Ib. rewrite Ei, HV by easy. unfold dst in Ei. apply flat3_inj in Ei; [|try easy; now apply step_bound..].
      destruct Ei as (<- & <- & ->).
      rewrite (ksum_single K _ _ b); [now rewrite !Z.eqb_refl|apply nodup_upto|now apply in_upto|].
      intros b' I Nab. destruct (Z.eqb_spec (b' * d) (b * d)) as [Eb|]; [|easy]. exfalso. apply Nab. apply Z.mul_cancel_r in Eb; [easy|lia].
    - rewrite at_repeat. symmetry. apply ksum_zero. intros b I. destruct (Z.eqb_spec (b * d) v) as [Eb|]; [|easy]. exfalso. apply Nh.
      exists f. split; [now apply in_upto|]. exists c. split; [now apply in_upto|]. exists b. split; [easy|]. unfold dst. now subst.
  Qed.
  Lemma undilate1_value F C kw s d input l : 0 <= F -> 0 <= C -> 1 <= kw -> 1 <= d ->
    Z.of_nat (length input) = F * C * kw -> undilate1 K F C kw d input = Some l ->
    forall x init f o, 0 <= f < F ->
    conv1 K C (d * (kw - 1) + 1) s 1 (entry3 K C (d * (kw - 1) + 1) l) x init f o = conv1 K C kw s d (entry3 K C kw input) x init f o.
  Proof.
    intros HF HC Hkw Hd L E x init f o Hf.
    destruct (undilate1_entries F C kw d input HF HC Hkw Hd) as (l' & E' & _ & V); [|easy|].
    { unfold undilate1 in E. destruct (Z.eqb_spec d 1); [discriminate E|easy]. }
    rewrite E in E'. injection E' as <-. unfold conv1. f_equal. apply ksum_ext. intros c Hc. apply in_upto in Hc.
    transitivity (ksum K (upto (d * (kw - 1) + 1)) (fun v => ksum K (upto kw) (fun k => x c (o * s + v) *r (if k * d =? v then entry3 K C kw input f c k else r0 K)))).
    - apply ksum_ext. intros v Hv. apply in_upto in Hv. rewrite Z.mul_1_r, V, ksum_mul_l by easy. reflexivity.
    - rewrite ksum_swap. apply ksum_ext. intros k Hk. apply in_upto in Hk.
      rewrite (ksum_single K _ _ (k * d)); [now rewrite Z.eqb_refl|apply nodup_upto|apply in_upto; now apply step_bound|].
      intros v _ Nv. replace (k * d =? v) with false by (symmetry; apply Z.eqb_neq; congruence). ring.
  Qed.

  (** ** Kernels of average poolings *)
  Lemma average2_entries C kh kw avg : 0 <= C -> 0 <= kh -> 0 <= kw ->
    exists l, average_kernel2 K C kh kw avg = Some l /\ Z.of_nat (length l) = C * C * kh * kw /\
    forall f c u v, 0 <= f < C -> 0 <= c < C -> 0 <= u < kh -> 0 <= v < kw ->
      entry4 K C kh kw l f c u v = if f =? c then avg else r0 K.
  Proof.
    intros HC Hkh Hkw. set (N := C * C * kh * kw). assert (HN : 0 <= N) by (unfold N; repeat apply Z.mul_nonneg_nonneg; lia).
    set (dst := fun f c i j => ((f * C + c) * kh + i) * kw + j).
    assert (A : exists l, average_kernel2 K C kh kw avg = Some l /\ Z.of_nat (length l) = N /\ forall i, 0 <= i < N ->
      ((exists f, In f (upto C) /\ exists c, In c (upto C) /\ (f = c /\ exists a, In a (upto kh) /\ exists b, In b (upto kw) /\ i = dst f c a b)) /\ at_ l i = avg) \/
      (~ (exists f, In f (upto C) /\ exists c, In c (upto C) /\ (f = c /\ exists a, In a (upto kh) /\ exists b, In b (upto kw) /\ i = dst f c a b)) /\
       at_ l i = at_ (repeat (r0 K) (Z.to_nat N)) i)).
    { unfold average_kernel2. fold N.
      refine (for_each_sets N _ _ (fun f i => exists c, In c (upto C) /\ (f = c /\ exists a, In a (upto kh) /\ exists b, In b (upto kw) /\ i = dst f c a b)) (fun _ => avg) _ _ _);
        [|now rewrite repeat_length, Z2Nat.id]. intros f Hf.
      apply (for_each_sets N _ _ (fun c i => f = c /\ exists a, In a (upto kh) /\ exists b, In b (upto kw) /\ i = dst f c a b) (fun _ => avg)). intros c Hc.
      apply in_upto in Hf, Hc. destruct (Z.eqb_spec f c) as [Efc|Nfc].
      - intros s Ls. destruct (for_each_sets N (upto kh) (fun h_idx => for_each (upto kw) (fun w_idx values => write K values (f * (C * kh * kw) + c * (kh * kw) + h_idx * kw + w_idx) avg))
          (fun a i => exists b, In b (upto kw) /\ i = dst f c a b) (fun _ => avg)) with (s := s) as (s' & E1 & E2 & E3); [|easy|].
        + intros a Ha. apply (for_each_sets N _ _ (fun b i => i = dst f c a b) (fun _ => avg)). intros b Hb. apply in_upto in Ha, Hb.
          replace (f * (C * kh * kw) + c * (kh * kw) + a * kw + b) with (dst f c a b) by (unfold dst; ring). apply sets_write; [|easy]. now apply flat4.
        + exists s'. split; [exact E1|]. split; [easy|]. intros i Hi. destruct (E3 i Hi) as [[H V]|[H V]]; [left|right]; (split; [|easy]); tauto.
      - intros s Ls. exists s. split; [easy|]. split; [easy|]. intros i _. right. split; [|easy]. tauto. }
    destruct A as (l & E & Ll & D). exists l. split; [easy|]. split; [easy|]. intros f c u v Hf Hc Hu Hv.
    unfold entry4. fold (at_ l (((f * C + c) * kh + u) * kw + v)).
    destruct (D (((f * C + c) * kh + u) * kw + v)) as [[(f' & If & c' & Ic & Efc & a & Ia & b & Ib & Ei) ->]|[Nh ->]]; [now apply flat4|..].
    - apply in_upto in If, Ic, Ia, Ib. apply flat4_inj in Ei; [|easy..]. destruct Ei as (-> & -> & _). subst. now rewrite Z.eqb_refl.
    - rewrite at_repeat. destruct (Z.eqb_spec f c) as [<-|]; [|easy]. exfalso. apply Nh. exists f. split; [now apply in_upto|]. exists f. split; [now apply in_upto|].
      split; [easy|]. exists u. split; [now apply in_upto|]. exists v. split; [now apply in_upto|easy].
  Qed.
  Lemma average1_entries C kw avg : 0 <= C -> 0 <= kw ->
    exists l, average_kernel1 K C kw avg = Some l /\ Z.of_nat (length l) = C * C * kw /\
    forall f c v, 0 <= f < C -> 0 <= c < C -> 0 <= v < kw -> entry3 K C kw l f c v = if f =? c then avg else r0 K.
  Proof.
    intros HC Hkw. set (N := C * C * kw). assert (HN : 0 <= N) by (unfold N; repeat apply Z.mul_nonneg_nonneg; lia).
    set (dst := fun f c j => (f * C + c) * kw + j).
    assert (A : exists l, average_kernel1 K C kw avg = Some l /\ Z.of_nat (length l) = N /\ forall i, 0 <= i < N ->
      ((exists f, In f (upto C) /\ exists c, In c (upto C) /\ (f = c /\ exists b, In b (upto kw) /\ i = dst f c b)) /\ at_ l i = avg) \/
      (~ (exists f, In f (upto C) /\ exists c, In c (upto C) /\ (f = c /\ exists b, In b (upto kw) /\ i = dst f c b)) /\
       at_ l i = at_ (repeat (r0 K) (Z.to_nat N)) i)).
    { unfold average_kernel1. fold N.
      refine (for_each_sets N _ _ (fun f i => exists c, In c (upto C) /\ (f = c /\ exists b, In b (upto kw) /\ i = dst f c b)) (fun _ => avg) _ _ _);
        [|now rewrite repeat_length, Z2Nat.id]. intros f Hf.
      apply (for_each_sets N _ _ (fun c i => f = c /\ exists b, In b (upto kw) /\ i = dst f c b) (fun _ => avg)). intros c Hc.
      apply in_upto in Hf, Hc. destruct (Z.eqb_spec f c) as [Efc|Nfc].
      - intros s Ls. destruct (for_each_sets N (upto kw) (fun w_idx values => write K values (f * (C * kw) + c * kw + w_idx) avg)
          (fun b i => i = dst f c b) (fun _ => avg)) with (s := s) as (s' & E1 & E2 & E3); [|easy|].
        + intros b Hb. apply in_upto in Hb.
          replace (f * (C * kw) + c * kw + b) with (dst f c b) by (unfold dst; ring). apply sets_write; [|easy]. now apply flat3.
        + exists s'. split; [exact E1|]. split; [easy|]. intros i Hi. destruct (E3 i Hi) as [[H V]|[H V]]; [left|right]; (split; [|easy]); tauto.
      - intros s Ls. exists s. split; [easy|]. split; [easy|]. intros i _. right. split; [|easy]. tauto. }
    destruct A as (l & E & Ll & D). exists l. split; [easy|]. split; [easy|]. intros f c v Hf Hc Hv.
    unfold entry3. fold (at_ l ((f * C + c) * kw + v)).
    destruct (D ((f * C + c) * kw + v)) as [[(f' & If & c' & Ic & Efc & b & Ib & Ei) ->]|[Nh ->]]; [now apply flat3|..].
    - apply in_upto in If, Ic, Ib. apply flat3_inj in Ei; [|easy..]. destruct Ei as (-> & -> & _). subst. now rewrite Z.eqb_refl.
    - rewrite at_repeat. destruct (Z.eqb_spec f c) as [<-|]; [|easy]. exfalso. apply Nh. exists f. split; [now apply in_upto|]. exists f. split; [now apply in_upto|].
      split; [easy|]. exists v. split; [now apply in_upto|easy].
  Qed.
  Lemma average2_value C kh kw avg l : 0 <= C -> 0 <= kh -> 0 <= kw -> average_kernel2 K C kh kw avg = Some l ->
    forall sh sw dh dw x init f oh ow, 0 <= f < C ->
    conv2 K C kh kw sh sw dh dw (entry4 K C kh kw l) x init f oh ow =
    init f oh ow +r ksum K (upto kh) (fun i => ksum K (upto kw) (fun j => x f (oh * sh + i * dh) (ow * sw + j * dw))) *r avg.
  Proof.
    intros HC Hkh Hkw E sh sw dh dw x init f oh ow Hf. destruct (average2_entries C kh kw avg HC Hkh Hkw) as (l' & E' & _ & V). rewrite E in E'. injection E' as <-.
    unfold conv2. f_equal. rewrite (ksum_single K _ _ f); [|apply nodup_upto|now apply in_upto|].
    - rewrite ksum_mul. apply ksum_ext. intros i Hi. apply in_upto in Hi. rewrite ksum_mul. apply ksum_ext. intros j Hj. apply in_upto in Hj.
      rewrite V by easy. now rewrite Z.eqb_refl.
    - intros c Hc N. apply in_upto in Hc. apply ksum_zero. intros i Hi. apply in_upto in Hi. apply ksum_zero. intros j Hj. apply in_upto in Hj.
      rewrite V by easy. replace (f =? c) with false by (symmetry; apply Z.eqb_neq; congruence). ring.
  Qed.
  Lemma average1_value C kw avg l : 0 <= C -> 0 <= kw -> average_kernel1 K C kw avg = Some l ->
    forall s d x init f o, 0 <= f < C ->
    conv1 K C kw s d (entry3 K C kw l) x init f o = init f o +r ksum K (upto kw) (fun i => x f (o * s + i * d)) *r avg.
  Proof.
    intros HC Hkw E s d x init f o Hf. destruct (average1_entries C kw avg HC Hkw) as (l' & E' & _ & V). rewrite E in E'. injection E' as <-.
    unfold conv1. f_equal. rewrite (ksum_single K _ _ f); [|apply nodup_upto|now apply in_upto|].
    - rewrite ksum_mul. apply ksum_ext. intros i Hi. apply in_upto in Hi. rewrite V by easy. now rewrite Z.eqb_refl.
    - intros c Hc N. apply in_upto in Hc. apply ksum_zero. intros i Hi. apply in_upto in Hi.
      rewrite V by easy. replace (f =? c) with false by (symmetry; apply Z.eqb_neq; congruence). ring.
  Qed.
End Proofs.
