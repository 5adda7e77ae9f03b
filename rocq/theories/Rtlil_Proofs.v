(** Lemmas for C84. *)
From Coq Require Import Ascii String List Bool NArith Arith Lia Permutation.
From Verif Require Import Lut_Spec Lut_Model Lut_Proofs Rtlil_Spec Rtlil_Model.
Import ListNotations.
Local Open Scope string_scope.
Local Open Scope list_scope.

Lemma all_spec {A} : forall (l : list (option A)) r, all l = Some r <-> l = map Some r.
Proof.
  induction l as [|[a|] l IH]; intros [|b r]; cbn [all map]; split; intro H; try discriminate H; auto.
  - destruct (all l); discriminate H.
  - destruct (all l) as [r'|] eqn:E; [|discriminate H]. injection H as -> ->. f_equal. apply IH. reflexivity.
  - injection H as -> H. apply IH in H. rewrite H. reflexivity.
Qed.

Lemma lookup_in {A} n : forall (l : list (string * A)) a, lookup n l = Some a -> In (n, a) l.
Proof.
  induction l as [|[p b] l IH]; intros a H; [discriminate H|]. cbn [lookup] in H. destruct (String.eqb_spec p n).
  - injection H as ->. subst. left; reflexivity.
  - right. auto.
Qed.
Lemma in_lookup {A} n : forall (l : list (string * A)) a, NoDup (map fst l) -> In (n, a) l -> lookup n l = Some a.
Proof.
  induction l as [|[p b] l IH]; intros a Hn H; [destruct H|]. cbn [lookup map fst] in *. inversion Hn; subst. destruct H as [H|H].
  - injection H as -> ->. rewrite String.eqb_refl. reflexivity.
  - destruct (String.eqb_spec p n); [|auto]. subst. exfalso. match goal with H : ~ In _ _ |- _ => apply H end.
    change n with (fst (n, a)). apply in_map. exact H.
Qed.

Lemma find_wire_in m x : NoDup (map wname (wires m)) -> In x (wires m) -> find_wire m (wname x) = Some x.
Proof.
  unfold find_wire. induction (wires m) as [|y l IH]; intros Hn H; [destruct H|]. cbn [map] in Hn. inversion Hn; subst. cbn [find].
  destruct (String.eqb_spec (wname y) (wname x)) as [E|E].
  - destruct H as [->|H]; [reflexivity|]. exfalso. match goal with H : ~ In _ _ |- _ => apply H end. rewrite E. apply in_map. exact H.
  - destruct H as [->|H]; [congruence|]. auto.
Qed.
Lemma find_wire_some m n x : find_wire m n = Some x -> In x (wires m) /\ wname x = n.
Proof. intro H. apply find_some in H. destruct H as [H E]. apply String.eqb_eq in E. auto. Qed.

Lemma as_wire_some m s w : as_wire m s = Some w -> exists x, In x (wires m) /\ wname x = w /\ s = whole x.
Proof.
  unfold as_wire. destruct s as [|[b|v i] s]; try discriminate. destruct (find_wire m v) as [x|] eqn:E; [|discriminate].
  destruct (signal_dec _ _) as [D|]; [|discriminate]. intro H. injection H as <-. apply find_wire_some in E. exists x.
  destruct E. auto.
Qed.
Lemma as_wire_whole m x : NoDup (map wname (wires m)) -> In x (wires m) -> width x <> 0 -> as_wire m (whole x) = Some (wname x).
Proof.
  intros Hn Hx Hw. unfold as_wire. destruct (whole x) as [|b s] eqn:E.
  - unfold whole in E. destruct (width x); [congruence|discriminate E].
  - assert (Hb : exists s', whole x = Bit (wname x) 0 :: s'). { unfold whole. destruct (width x); [congruence|]. eexists; reflexivity. }
    destruct Hb as [s' Hb]. rewrite E in Hb. injection Hb as -> <-. rewrite (find_wire_in _ _ Hn Hx).
    destruct (signal_dec _ _) as [|D]; [reflexivity|]. congruence.
Qed.
Lemma whole_length x : length (whole x) = width x.
Proof. unfold whole. rewrite map_length, seq_length. reflexivity. Qed.
Lemma whole_one x b : [b] = whole x -> width x = 1 /\ b = Bit (wname x) 0.
Proof.
  intro H. assert (L : width x = 1) by (rewrite <- whole_length, <- H; reflexivity). split; auto.
  unfold whole in H. rewrite L in H. cbn in H. congruence.
Qed.

Lemma chunks_seq w : forall n i, chunks (map (Bit w) (seq i n)) <= 1.
Proof.
  induction n as [|n IH]; intro i; [cbn; lia|]. cbn [seq map chunks]. destruct n; [cbn; lia|]. specialize (IH (S i)).
  cbn [seq map] in *. cbn [joins]. rewrite String.eqb_refl, Nat.eqb_refl. exact IH.
Qed.
Lemma chunks_zero s : chunks s = 0 -> s = [].
Proof.
  induction s as [|a s IH]; [reflexivity|]. cbn [chunks]. destruct s as [|b s]; [discriminate|]. destruct (joins a b); [|discriminate].
  intro H. apply IH in H. discriminate H.
Qed.

Lemma nth_error_ext {A} : forall l l' : list A, (forall i, nth_error l i = nth_error l' i) -> l = l'.
Proof.
  induction l as [|a l IH]; intros [|b l'] H; [reflexivity|discriminate (H 0)|discriminate (H 0)|].
  f_equal; [pose proof (H 0) as H0; injection H0; auto|]. apply IH. intro i. exact (H (S i)).
Qed.
Lemma nth_replace {A} (a : A) : forall l i j, i < length l -> nth_error (replace_nth i a l) j = if Nat.eqb j i then Some a else nth_error l j.
Proof.
  induction l as [|b l IH]; intros i j H; [cbn in H; lia|]. destruct i, j; cbn [replace_nth nth_error Nat.eqb length] in *; auto. apply IH. lia.
Qed.
Lemma length_replace {A} (a : A) : forall l i, length (replace_nth i a l) = length l.
Proof. induction l as [|b l IH]; intros [|i]; cbn [replace_nth length]; auto. Qed.

Section Sound.
  Variables (m : module) (ins outs : list wire) (rho : assignment).
  Hypothesis Hports : ports_ok m ins outs.
  Let args := map (wire_value rho) ins.

  Lemma names : NoDup (map wname (wires m)).
  Proof. exact (proj1 Hports). Qed.
  Lemma same_wire x y : In x (wires m) -> In y (wires m) -> wname x = wname y -> x = y.
  Proof. intros Hx Hy E. pose proof (find_wire_in _ _ names Hx) as A. rewrite E, (find_wire_in _ _ names Hy) in A. congruence. Qed.
  Lemma outs_ret x : In x outs <-> In x (wires m) /\ is_ret x = true.
  Proof.
    destruct Hports as (_ & _ & Ho & _). rewrite (Ho x). unfold is_ret. destruct (port_input x), (port_output x); cbn; intuition congruence.
  Qed.

  (** [kb]: the bits written one by one, [wb]: all bits written. *)
  Definition named_ok (wb : list bit) (st : state) : Prop := forall w e, named st w = Some e ->
    exists x, In x (wires m) /\ wname x = w /\ eval args e = Some (wire_value rho x) /\
      (port_input x = true \/ forall i, i < width x -> In (Bit w i) wb).
  Definition ret_ok (kb : list bit) (st : state) : Prop := forall w l, ret st w = Some l ->
    exists x, In x (wires m) /\ wname x = w /\ is_ret x = true /\ length l = width x /\
      (width x <> 1 -> forall i e, nth_error l i = Some e ->
         (In (Bit w i) kb -> eval args e = Some (VBit (rho w i))) /\ (~ In (Bit w i) kb -> e = Lit false)).
  Definition ret_dom (st : state) : Prop := forall x, In x (wires m) -> is_ret x = true -> ret st (wname x) <> None.
  (** A wire of one bit is named as soon as its bit is written. *)
  Definition inv (kb wb : list bit) (st : state) : Prop := named_ok wb st /\ ret_ok kb st /\ ret_dom st /\ incl kb wb.

  Lemma get_bit_one kb wb st b e : inv kb wb st -> in_range m [b] ->
    (forall x i, In x outs -> width x <> 1 -> b = Bit (wname x) i -> In b kb) ->
    get_bit m st [b] = Some e -> eval args e = Some (VBit (bit_value rho b)).
  Proof.
    intros (Hn & Hr & _) Hin Hk H. unfold get_bit in H. destruct (as_wire m [b]) as [w|] eqn:E.
    - apply as_wire_some in E. destruct E as (x & Hx & Hw & E). apply whole_one in E. destruct E as [Hw1 ->]. cbn [bit_value].
      destruct (Hn _ _ H) as (y & Hy & Hyw & He & _). assert (x = y) by (apply same_wire; congruence). subst y.
      rewrite He. unfold wire_value. rewrite Hw1. cbn [Nat.eqb]. congruence.
    - destruct b as [c|w i]; cbn [forallb is_const andb] in H.
      + injection H as <-. reflexivity.
      + destruct (Hin w i (or_introl eq_refl)) as (x & Hx & Hw & Hi).
        assert (Hw1 : width x <> 1).
        { intro W. assert (i = 0) by lia. subst i w. replace [Bit (wname x) 0] with (whole x) in E by (unfold whole; rewrite W; reflexivity).
          rewrite as_wire_whole in E; [discriminate E|apply names|auto|lia]. }
        destruct (ret st w) as [l|] eqn:Er.
        * destruct (Hr _ _ Er) as (y & Hy & Hyw & Hret & Hl & Hb). assert (x = y) by (apply same_wire; congruence). subst y.
          apply (proj1 (Hb Hw1 i e H)). apply (Hk x i); auto; [apply outs_ret; auto|congruence].
        * destruct (named st w) as [e'|] eqn:En; [|discriminate H]. injection H as <-.
          destruct (Hn _ _ En) as (y & Hy & Hyw & He & _). assert (x = y) by (apply same_wire; congruence). subst y.
          cbn [eval]. rewrite He. unfold wire_value. destruct (Nat.eqb_spec (width x) 1); [congruence|].
          rewrite nth_error_map. replace (nth_error (seq 0 (width x)) i) with (Some i).
          -- cbn. congruence.
          -- symmetry. rewrite (nth_error_nth' _ 0) by (rewrite seq_length; auto). rewrite seq_nth; auto.
  Qed.

  Lemma add_named kb wb wb' st x e : inv kb wb st -> incl wb wb' -> In x (wires m) -> eval args e = Some (wire_value rho x) ->
    (port_input x = true \/ forall i, i < width x -> In (Bit (wname x) i) wb') ->
    named_ok wb' (add_wire_value st (wname x) e).
  Proof.
    intros (Hn & _) Hi Hx He Hd w e' H. unfold add_wire_value in H. destruct (named st (wname x)) as [e0|] eqn:E.
    - destruct (Hn _ _ H) as (y & A & B & C & D). exists y. repeat split; auto. destruct D as [D|D]; [left; auto|right; intros; apply Hi; auto].
    - cbn [named] in H. unfold set in H. destruct (String.eqb_spec w (wname x)) as [->|Hne].
      + injection H as <-. exists x. auto.
      + destruct (Hn _ _ H) as (y & A & B & C & D). exists y. repeat split; auto. destruct D as [D|D]; [left; auto|right; intros; apply Hi; auto].
  Qed.
  Lemma add_ret st w e : ret (add_wire_value st w e) = ret st.
  Proof. unfold add_wire_value. destruct (named st w); reflexivity. Qed.

  Lemma add_result_one kb wb st st' b e : inv kb wb st -> in_range m [b] -> eval args e = Some (VBit (bit_value rho b)) ->
    add_result_bit m st [b] e = Some st' -> inv (b :: kb) (b :: wb) st'.
  Proof.
    intros Hinv Hin He H. pose proof Hinv as (Hn & Hr & Hd & Hs). unfold add_result_bit in H.
    assert (Hsub : incl (b :: kb) (b :: wb)). { intros c [->|Hc]; [left; auto|right; auto]. }
    assert (Hmono : named_ok (b :: wb) st).
    { intros w' e' H'. destruct (Hn _ _ H') as (y & A & B & C & D). exists y. repeat split; auto.
      destruct D as [D|D]; [left; auto|right; intros; right; auto]. }
    destruct (as_wire m [b]) as [w|] eqn:E.
    - injection H as <-. apply as_wire_some in E. destruct E as (x & Hx & Hw & E). apply whole_one in E. destruct E as [Hw1 ->]. subst w.
      split; [|split; [|split; auto]].
      + apply (add_named kb wb); auto.
        * intros c Hc. right. exact Hc.
        * rewrite He. unfold wire_value. rewrite Hw1. reflexivity.
        * right. intros i Hi. left. f_equal. lia.
      + intros w l H. rewrite add_ret in H. destruct (Hr _ _ H) as (y & A & B & C & D & F). exists y. repeat split; auto.
        * intros [Hb|Hb]; [|apply (F H0 i e0 H1); auto]. exfalso. injection Hb as Hb1 Hb2. apply H0.
          replace y with x; auto. apply same_wire; auto. congruence.
        * intro Hb. apply (F H0 i e0 H1). intro Hb'. apply Hb. right. exact Hb'.
      + intros y Hy Hy2. rewrite add_ret. auto.
    - destruct b as [c|w i]; [discriminate H|]. destruct (Hin w i (or_introl eq_refl)) as (x & Hx & Hw & Hi).
      destruct (ret st w) as [l|] eqn:Er.
      + destruct (Nat.ltb_spec i (length l)) as [Hil|]; [|discriminate H]. injection H as <-.
        split; [exact Hmono|]. split; [|split; auto].
        * intros v l' H'. cbn [ret] in H'. unfold set in H'. destruct (String.eqb_spec v w) as [->|Hne].
          -- injection H' as <-. destruct (Hr _ _ Er) as (y & A & B & C & D & F). exists y. split; [auto|]. split; [auto|]. split; [auto|].
             split; [rewrite length_replace; auto|]. intros Hw1 j e' Hj. rewrite nth_replace in Hj by auto.
             destruct (Nat.eqb_spec j i) as [->|Hji].
             ++ injection Hj as <-. split; [intros _; exact He|]. intro Hc. exfalso. apply Hc. left. reflexivity.
             ++ destruct (F Hw1 j e' Hj) as [F1 F2]. split.
                ** intros [Hc|Hc]; [injection Hc as Hc; congruence|auto].
                ** intro Hc. apply F2. intro Hc'. apply Hc. right. exact Hc'.
          -- destruct (Hr _ _ H') as (y & A & B & C & D & F). exists y. split; [auto|]. split; [auto|]. split; [auto|]. split; [auto|].
             intros Hw1 j e' Hj. destruct (F Hw1 j e' Hj) as [F1 F2]. split.
             ++ intros [Hc|Hc]; [injection Hc as Hc; congruence|auto].
             ++ intro Hc. apply F2. intro Hc'. apply Hc. right. exact Hc'.
        * intros y Hy Hy2. cbn [ret]. unfold set. destruct (String.eqb_spec (wname y) w); [discriminate|]. apply Hd; auto.
      + destruct (named st w) as [e0|] eqn:En; [|discriminate H]. injection H as <-. split; [exact Hmono|]. split; [|split; auto].
        intros v l' H'. destruct (Hr _ _ H') as (y & A & B & C & D & F). exists y. split; [auto|]. split; [auto|]. split; [auto|]. split; [auto|].
        intros Hw1 j e' Hj. destruct (F Hw1 j e' Hj) as [F1 F2]. split.
        * intros [Hc|Hc]; [injection Hc as Hc; congruence|auto].
        * intro Hc. apply F2. intro Hc'. apply Hc. right. exact Hc'.
  Qed.

  Lemma in_range_one s b : in_range m s -> In b s -> in_range m [b].
  Proof. intros H Hb w i [E|[]]. apply H. rewrite <- E. exact Hb. Qed.

  Lemma connect_bits_inv : forall l r kb wb st st', inv kb wb st -> in_range m l -> in_range m r ->
    signal_value rho l = signal_value rho r ->
    (forall x i, In x outs -> width x <> 1 -> In (Bit (wname x) i) r -> In (Bit (wname x) i) kb) ->
    connect_bits m st l r = Some st' -> inv (rev l ++ kb) (rev l ++ wb) st'.
  Proof.
    induction l as [|a l IH]; intros r kb wb st st' Hinv Hl Hr Hv Hk H.
    - destruct r; cbn [connect_bits] in H; injection H as <-; exact Hinv.
    - destruct r as [|b r]; [discriminate H|]. cbn [connect_bits] in H.
      destruct (get_bit m st [b]) as [e|] eqn:Eg; [|discriminate H]. destruct (add_result_bit m st [a] e) as [st1|] eqn:Ea; [|discriminate H].
      cbn [signal_value map] in Hv. injection Hv as Hv1 Hv2.
      assert (He : eval args e = Some (VBit (bit_value rho b))).
      { apply (get_bit_one kb wb st b e); auto; [apply (in_range_one (b :: r)); [auto|left; auto]|].
        intros x i Hx Hw ->. apply (Hk x i); auto. left. reflexivity. }
      rewrite <- Hv1 in He. pose proof (add_result_one kb wb st st1 a e Hinv (in_range_one _ a Hl (or_introl eq_refl)) He Ea) as Hinv1.
      cbn [rev]. rewrite <- !app_assoc. cbn [app].
      apply (IH r (a :: kb) (a :: wb) st1 st' Hinv1).
      + intros w i Hi. apply Hl. right. exact Hi.
      + intros w i Hi. apply Hr. right. exact Hi.
      + exact Hv2.
      + intros x i Hx Hw Hi. right. apply (Hk x i); auto. right. exact Hi.
      + exact H.
  Qed.

  Lemma copy_branch l r : copies m l r ->
    (is_chunk l && negb (is_wire m l)) || ((is_chunk r && negb (is_wire m r)) || Nat.ltb 1 (chunks r)) = false.
  Proof.
    intros (x & y & Hx & Hy & -> & ->).
    assert (W : forall z, In z (wires m) -> is_chunk (whole z) && negb (is_wire m (whole z)) = false).
    { intros z Hz. destruct (Nat.eq_dec (width z) 0) as [E|E].
      - unfold whole. rewrite E. reflexivity.
      - unfold is_wire. rewrite (as_wire_whole _ _ names Hz E). cbn. apply andb_false_r. }
    rewrite (W x Hx), (W y Hy). cbn [orb]. apply Nat.ltb_ge. apply chunks_seq.
  Qed.

  Lemma connection_inv kb wb st st' l r : inv kb wb st -> in_range m l -> in_range m r -> signal_value rho l = signal_value rho r ->
    (~ copies m l r -> forall x i, In x outs -> width x <> 1 -> In (Bit (wname x) i) r -> In (Bit (wname x) i) kb) ->
    import_connection m st (l, r) = Some st' ->
    (copies m l r /\ inv kb (rev l ++ wb) st') \/ (~ copies m l r /\ inv (rev l ++ kb) (rev l ++ wb) st').
  Proof.
    intros Hinv Hl Hr Hv Hk H. unfold import_connection in H. destruct (existsb is_const l); [discriminate H|].
    destruct ((is_chunk l && negb (is_wire m l)) || ((is_chunk r && negb (is_wire m r)) || Nat.ltb 1 (chunks r))) eqn:E.
    - assert (Hc : ~ copies m l r). { intro C. apply copy_branch in C. congruence. }
      right. split; [exact Hc|]. apply (connect_bits_inv l r kb wb st st'); auto.
    - left. destruct (get_bit m st r) as [e|] eqn:Eg; [|discriminate H].
      apply orb_false_iff in E. destruct E as [E1 E]. apply orb_false_iff in E. destruct E as [E2 E3]. apply Nat.ltb_ge in E3.
      assert (Hrw : exists v, as_wire m r = Some v).
      { unfold is_wire in E2. destruct (as_wire m r) as [v|] eqn:Er; [eauto|]. exfalso. cbn [negb] in E2. rewrite andb_true_r in E2.
        unfold is_chunk in E2. apply Nat.eqb_neq in E2. assert (chunks r = 0) by lia. apply chunks_zero in H0. subst r.
        destruct l; [|discriminate Hv]. discriminate H. }
      destruct Hrw as [v Er].
      assert (Hlw : exists w, as_wire m l = Some w).
      { unfold is_wire in E1. destruct (as_wire m l) as [w|] eqn:El; [eauto|]. exfalso. unfold add_result_bit in H. rewrite El in H.
        destruct l as [|[c|w i] [|? ?]]; try discriminate H. cbn in E1. discriminate E1. }
      destruct Hlw as [w El]. unfold get_bit in Eg. rewrite Er in Eg. unfold add_result_bit in H. rewrite El in H. injection H as <-.
      apply as_wire_some in El. destruct El as (x & Hx & Hxw & Ex). apply as_wire_some in Er. destruct Er as (y & Hy & Hyw & Ey).
      split; [exists x, y; auto|]. pose proof Hinv as (Hn & Hr' & Hd & Hs).
      assert (Hwid : width x = width y).
      { rewrite <- !whole_length, <- Ex, <- Ey. assert (L : length (signal_value rho l) = length (signal_value rho r)) by congruence.
        unfold signal_value in L. rewrite !map_length in L. exact L. }
      assert (Hval : wire_value rho x = wire_value rho y).
      { rewrite Ex, Ey in Hv. unfold signal_value, whole in Hv. rewrite !map_map in Hv. cbn [bit_value] in Hv. unfold wire_value. rewrite Hwid in *.
        destruct (Nat.eqb_spec (width y) 1) as [W|W]; [|f_equal; exact Hv]. rewrite W in Hv. cbn in Hv. congruence. }
      destruct (Hn _ _ Eg) as (y' & Hy' & Hyw' & He & _). assert (y = y') by (apply same_wire; congruence). subst y' w.
      split; [|split; [|split]].
      + apply (add_named kb wb); auto.
        * intros c Hc. apply in_or_app. right. exact Hc.
        * congruence.
        * right. intros i Hi. apply in_or_app. left. rewrite <- in_rev, Ex. unfold whole. apply in_map, in_seq. lia.
      + intros w l' H'. rewrite add_ret in H'. exact (Hr' _ _ H').
      + intros z Hz Hz2. rewrite add_ret. auto.
      + intros c Hc. apply in_or_app. right. apply Hs. exact Hc.
  Qed.

  (** The bit of a signal of one bit. *)
  Definition one (s : signal) : bool := match s with [b] => bit_value rho b | _ => false end.

  Lemma inputs_eval kb wb st : inv kb wb st -> forall sigs es,
    (forall s, In s sigs -> length s = 1 /\ in_range m s /\
       forall x i, In x outs -> width x <> 1 -> In (Bit (wname x) i) s -> In (Bit (wname x) i) kb) ->
    all (map (get_bit m st) sigs) = Some es -> map (fun e => as_bit (eval args e)) es = map Some (map one sigs).
  Proof.
    intro Hinv. induction sigs as [|s sigs IH]; intros es Hs H.
    - injection H as <-. reflexivity.
    - cbn [map all] in H. destruct (get_bit m st s) as [e|] eqn:E; [|discriminate H].
      destruct (all (map (get_bit m st) sigs)) as [es'|] eqn:E'; [|discriminate H]. injection H as <-. cbn [map].
      destruct (Hs s (or_introl eq_refl)) as (L & R & K). destruct s as [|b [|? ?]]; try discriminate L.
      rewrite (get_bit_one kb wb st b e Hinv R); [|intros x i Hx Hw ->; apply (K x i Hx Hw); left; reflexivity|exact E].
      cbn [as_bit one]. f_equal. apply IH; [|reflexivity]. intros s' Hs'. apply Hs. right. exact Hs'.
  Qed.

  Lemma three (l : list (string * signal)) : NoDup (map fst l) -> (forall p s, In (p, s) l -> length s = 1) ->
    (forall p, In p (map fst l) <-> In p ["\A"; "\B"; "\Y"]) ->
    exists a b y, l = [("\A", [a]); ("\B", [b]); ("\Y", [y])] \/ l = [("\A", [a]); ("\Y", [y]); ("\B", [b])] \/
                  l = [("\B", [b]); ("\A", [a]); ("\Y", [y])] \/ l = [("\B", [b]); ("\Y", [y]); ("\A", [a])] \/
                  l = [("\Y", [y]); ("\A", [a]); ("\B", [b])] \/ l = [("\Y", [y]); ("\B", [b]); ("\A", [a])].
  Proof.
    intros Hn Hl Hi.
    assert (P : Permutation (map fst l) ["\A"; "\B"; "\Y"]).
    { apply NoDup_Permutation; auto. repeat constructor; cbn; intuition discriminate. }
    apply Permutation_length in P. rewrite map_length in P. cbn [length] in P.
    destruct l as [|[p1 s1] [|[p2 s2] [|[p3 s3] [|]]]]; try discriminate P.
    assert (L1 := Hl p1 s1 ltac:(cbn; auto)). assert (L2 := Hl p2 s2 ltac:(cbn; auto)). assert (L3 := Hl p3 s3 ltac:(cbn; auto)).
    destruct s1 as [|b1 [|? ?]]; try discriminate L1. destruct s2 as [|b2 [|? ?]]; try discriminate L2. destruct s3 as [|b3 [|? ?]]; try discriminate L3.
    cbn [map fst] in *.
    assert (I1 := proj1 (Hi p1) ltac:(cbn; auto)). assert (I2 := proj1 (Hi p2) ltac:(cbn; auto)). assert (I3 := proj1 (Hi p3) ltac:(cbn; auto)).
    inversion Hn as [|? ? N1 Hn2]; subst. inversion Hn2 as [|? ? N2 _]; subst. cbn [In] in N1, N2.
    cbn [In] in I1, I2, I3.
    destruct I1 as [<-|[<-|[<-|[]]]]; destruct I2 as [<-|[<-|[<-|[]]]]; try (exfalso; intuition congruence);
      destruct I3 as [<-|[<-|[<-|[]]]]; try (exfalso; intuition congruence).
    - exists b1, b2, b3. auto.
    - exists b1, b3, b2. auto.
    - exists b2, b1, b3. auto.
    - exists b3, b1, b2. auto.
    - exists b2, b3, b1. auto 7.
    - exists b3, b2, b1. auto 7.
  Qed.
  Lemma two (l : list (string * signal)) : NoDup (map fst l) -> (forall p s, In (p, s) l -> length s = 1) ->
    (forall p, In p (map fst l) <-> In p ["\A"; "\Y"]) ->
    exists a y, l = [("\A", [a]); ("\Y", [y])] \/ l = [("\Y", [y]); ("\A", [a])].
  Proof.
    intros Hn Hl Hi.
    assert (P : Permutation (map fst l) ["\A"; "\Y"]).
    { apply NoDup_Permutation; auto. repeat constructor; cbn; intuition discriminate. }
    apply Permutation_length in P. rewrite map_length in P. cbn [length] in P.
    destruct l as [|[p1 s1] [|[p2 s2] [|]]]; try discriminate P.
    assert (L1 := Hl p1 s1 ltac:(cbn; auto)). assert (L2 := Hl p2 s2 ltac:(cbn; auto)).
    destruct s1 as [|b1 [|? ?]]; try discriminate L1. destruct s2 as [|b2 [|? ?]]; try discriminate L2.
    cbn [map fst] in *.
    assert (I1 := proj1 (Hi p1) ltac:(cbn; auto)). assert (I2 := proj1 (Hi p2) ltac:(cbn; auto)).
    inversion Hn as [|? ? N1 Hn2]; subst. cbn [In] in N1, I1, I2.
    destruct I1 as [<-|[<-|[]]]; destruct I2 as [<-|[<-|[]]]; try (exfalso; intuition congruence).
    - exists b1, b2. auto.
    - exists b2, b1. auto.
  Qed.


  Lemma gate_sym g a b : gate_bit g a b = gate_bit g b a.
  Proof. destruct g, a, b; reflexivity. Qed.

  Lemma two_inputs es x y : map (fun e => as_bit (eval args e)) es = [Some x; Some y] ->
    forall g, eval args (Op (Nary g) es) = Some (VBit (gate_bit g x y)).
  Proof. intros H g. cbn [eval]. rewrite H. reflexivity. Qed.

  Lemma create_gate k c op es g : ctype c = String.append "$_" (String.append g "_") -> forall gt,
    In (g, gt) [("AND", AND); ("NAND", NAND); ("OR", OR); ("NOR", NOR); ("XOR", XOR); ("XNOR", XNOR)] ->
    create_op k c es = Some op -> es <> [] /\ op = Op (Nary gt) es /\ k = Boolean.
  Proof.
    intros Ht gt Hg H. cbn [In] in Hg.
    repeat match goal with H : _ \/ _ |- _ => destruct H as [Hg|Hg] | H : False |- _ => destruct H end; injection Hg as <- <-;
      (destruct k; [|cbn [create_op] in H; unfold lut_op in H; rewrite Ht in H; discriminate H]);
      cbn [create_op] in H; unfold gate_op in H; rewrite Ht in H; (destruct es as [|e es]; [discriminate H|]); cbn in H; injection H as <-;
      repeat split; discriminate.
  Qed.

  Lemma gate_correct k c es op g gt : cell_ok c -> ctype c = String.append "$_" (String.append g "_") ->
    In (g, gt) [("AND", AND); ("NAND", NAND); ("OR", OR); ("NOR", NOR); ("XOR", XOR); ("XNOR", XNOR)] ->
    kind_of (ctype c) = Some (KGate gt) ->
    create_op k c es = Some op -> map (fun e => as_bit (eval args e)) es = map Some (map one (get_inputs k c)) ->
    exists b, cell_value rho c = Some b /\ eval args op = Some (VBit b).
  Proof.
    intros (Hn & Hl & Hk) Ht Hg Hkind H He. rewrite Hkind in Hk. destruct (create_gate k c op es g Ht gt Hg H) as (_ & -> & ->).
    destruct (three _ Hn Hl Hk) as (a & b & y & Hc). unfold cell_value. rewrite Hkind. unfold port_value. cbn [get_inputs] in He. unfold gate_inputs in He.
    assert (Hes : map (fun e => as_bit (eval args e)) es = [Some (bit_value rho a); Some (bit_value rho b)] \/
                  map (fun e => as_bit (eval args e)) es = [Some (bit_value rho b); Some (bit_value rho a)]).
    { rewrite He. destruct Hc as [->|[->|[->|[->|[->| ->]]]]]; cbn; auto. }
    exists (gate_bit gt (bit_value rho a) (bit_value rho b)). split.
    - destruct Hc as [->|[->|[->|[->|[->| ->]]]]]; reflexivity.
    - destruct Hes as [Hes|Hes]; rewrite (two_inputs _ _ _ Hes); [reflexivity|]. rewrite gate_sym. reflexivity.
  Qed.

  Lemma not_correct k c es op : cell_ok c -> ctype c = "$_NOT_" ->
    create_op k c es = Some op -> map (fun e => as_bit (eval args e)) es = map Some (map one (get_inputs k c)) ->
    exists b, cell_value rho c = Some b /\ eval args op = Some (VBit b).
  Proof.
    intros (Hn & Hl & Hk) Ht H He. rewrite Ht in Hk. cbn in Hk.
    destruct k; [|cbn [create_op] in H; unfold lut_op in H; rewrite Ht in H; discriminate H].
    destruct (two _ Hn Hl Hk) as (a & y & Hc). unfold cell_value. rewrite Ht. cbn [kind_of lookup String.eqb Ascii.eqb Bool.eqb]. unfold port_value.
    cbn [get_inputs] in He. unfold gate_inputs in He.
    assert (Hes : map (fun e => as_bit (eval args e)) es = [Some (bit_value rho a)]).
    { rewrite He. destruct Hc as [->| ->]; reflexivity. }
    exists (negb (bit_value rho a)). split.
    - destruct Hc as [->| ->]; reflexivity.
    - destruct es as [|e [|? ?]]; [discriminate Hes| |discriminate Hes]. cbn [map] in Hes. injection Hes as Hes.
      cbn [create_op] in H. unfold gate_op in H. rewrite Ht in H. cbn in H. injection H as <-. cbn [eval map]. rewrite Hes. reflexivity.
  Qed.

  Lemma filter_ports n (l : list (string * signal)) :
    (forall p, In p (map fst l) -> In p (firstn n input_ports ++ "\Y" :: map row_port (seq 0 (2 ^ n)))) ->
    map fst (filter (fun conn => negb (contains "P"%char (fst conn) || contains "Y"%char (fst conn))) l) =
    filter (fun p => existsb (String.eqb p) input_ports) (map fst l).
  Proof.
    induction l as [|[p s] l IH]; intro H; [reflexivity|]. cbn [map fst filter].
    assert (E : negb (contains "P"%char p || contains "Y"%char p) = existsb (String.eqb p) input_ports).
    { assert (Hp := H p (or_introl eq_refl)). apply in_app_or in Hp. destruct Hp as [Hp|[<-|Hp]].
      - assert (Hp' : In p input_ports). { rewrite <- (firstn_skipn n input_ports). apply in_or_app. left. exact Hp. }
        cbn [In input_ports] in Hp'. destruct Hp' as [<-|[<-|[<-|[<-|[]]]]]; reflexivity.
      - reflexivity.
      - apply in_map_iff in Hp. destruct Hp as (i & <- & _). reflexivity. }
    rewrite E. rewrite <- IH by (intros q Hq; apply H; right; exact Hq). destruct (existsb _ _); reflexivity.
  Qed.

  Lemma lookup_map (l : list (string * signal)) : NoDup (map fst l) -> forall sub, incl sub l ->
    map (fun p => match lookup p l with Some [b] => Some (bit_value rho b) | _ => None end) (map fst sub) =
    map (fun s => match s with [b] => Some (bit_value rho b) | _ => None end) (map snd sub).
  Proof.
    intros Hn. induction sub as [|[p s] sub IH]; intro Hi; [reflexivity|]. cbn [map fst snd].
    rewrite (in_lookup p l s Hn (Hi _ (or_introl eq_refl))). f_equal. apply IH. intros x Hx. apply Hi. right. exact Hx.
  Qed.

  Lemma lut_correct k c es op n d : cell_ok c -> In (n, d) [(2, "2"); (3, "3"); (4, "4")] -> ctype c = String.append "\lut" d ->
    create_op k c es = Some op -> map (fun e => as_bit (eval args e)) es = map Some (map one (get_inputs k c)) ->
    exists b, cell_value rho c = Some b /\ eval args op = Some (VBit b).
  Proof.
    intros (Hn & Hl & Hk) Hd Ht H He.
    assert (Hkind : kind_of (ctype c) = Some (KLut n)).
    { rewrite Ht. cbn [In] in Hd. destruct Hd as [Hd|[Hd|[Hd|[]]]]; injection Hd as <- <-; reflexivity. }
    destruct k.
    { exfalso. cbn [create_op] in H. unfold gate_op in H. rewrite Ht in H. destruct es as [|e es]; [discriminate H|].
      cbn [In] in Hd. destruct Hd as [Hd|[Hd|[Hd|[]]]]; injection Hd as <- <-; cbn in H; discriminate H. }
    rewrite Hkind in Hk. destruct Hk as (Hi & Hf & Hrow).
    assert (Hdig : digit_of (ctype c) = Some n /\ prefix "\lut" (ctype c) = true /\ n <= 4).
    { rewrite Ht. cbn [In] in Hd. destruct Hd as [Hd|[Hd|[Hd|[]]]]; injection Hd as <- <-; repeat split; lia. }
    destruct Hdig as (Hdig & Hpre & Hn4). cbn [create_op] in H. unfold lut_op in H. rewrite Hpre, Hdig in H.
    destruct (all (map (row c) (seq 0 (2 ^ n)))) as [rows|] eqn:Er; [|discriminate H].
    destruct (assemble 0 (2 ^ n) rows) as [table|] eqn:Ea; [|discriminate H]. destruct (Nat.eqb_spec (2 ^ length es) (2 ^ n)); [|discriminate H].
    injection H as <-. cbn [get_inputs] in He. unfold lut_ports in He.
    set (sub := filter (fun conn => negb (contains "P"%char (fst conn) || contains "Y"%char (fst conn))) (conns c)) in *.
    assert (Hsub : map fst sub = firstn n input_ports).
    { unfold sub. rewrite (filter_ports n); [exact Hf|]. intros p Hp. apply Hi. exact Hp. }
    assert (Hincl : incl sub (conns c)). { intros x Hx. apply filter_In in Hx. tauto. }
    set (bits := map one (map snd sub)).
    assert (Hbits : map (fun p => match port_value rho c p with Some b => b | None => false end) (firstn n input_ports) = bits).
    { rewrite <- Hsub. unfold port_value, bits. clear - Hn Hincl. induction sub as [|[p s] sub IH]; [reflexivity|]. cbn [map fst snd].
      rewrite (in_lookup p _ s Hn (Hincl _ (or_introl eq_refl))). f_equal.
      - destruct s as [|b [|? ?]]; reflexivity.
      - apply IH. intros x Hx. apply Hincl. right. exact Hx. }
    assert (Lb : length bits = n).
    { unfold bits. rewrite !map_length. assert (L : length (map fst sub) = length (firstn n input_ports)) by congruence.
      rewrite map_length, firstn_length in L. cbn [length input_ports] in L. lia. }
    assert (Hidx : N.to_nat (lsb_value bits) < 2 ^ n).
    { pose proof (lsb_value_bound bits) as B. rewrite Lb, <- N_pow2_nat in B. lia. }
    exists (nth (N.to_nat (lsb_value bits)) rows false). split.
    - unfold cell_value. rewrite Hkind. cbv zeta. rewrite Hbits. unfold port_value.
      destruct (Hrow _ Hidx) as [b Hb]. rewrite Hb. cbn [bit_value]. f_equal.
      apply all_spec in Er. assert (Hnth : nth_error (map (row c) (seq 0 (2 ^ n))) (N.to_nat (lsb_value bits)) = Some (Some b)).
      { rewrite nth_error_map, (nth_error_nth' _ 0) by (rewrite seq_length; auto). rewrite seq_nth by auto. cbn [option_map Nat.add].
        unfold row. rewrite Hb. reflexivity. }
      rewrite Er, nth_error_map in Hnth. destruct (nth_error rows (N.to_nat (lsb_value bits))) as [b'|] eqn:E; [|discriminate Hnth].
      cbn [option_map] in Hnth. injection Hnth as ->. rewrite (nth_error_nth _ _ false E). reflexivity.
    - cbn [eval]. rewrite He. rewrite map_rev, map_rev. fold bits. rewrite <- map_rev. rewrite (proj2 (all_spec _ (rev bits)) eq_refl).
      cbn [comb_value option_map]. do 2 f_equal. unfold truth_table. rewrite msb_value_rev, (assemble_testbit _ _ _ _ Ea).
      destruct (N.leb_spec (N.of_nat 0) (lsb_value bits)); [|lia]. destruct (N.ltb_spec (lsb_value bits) (N.of_nat (0 + 2 ^ n))); [|lia].
      cbn [andb]. f_equal. lia.
  Qed.

  Lemma create_correct k c es op : cell_ok c -> create_op k c es = Some op ->
    map (fun e => as_bit (eval args e)) es = map Some (map one (get_inputs k c)) ->
    exists b, cell_value rho c = Some b /\ eval args op = Some (VBit b).
  Proof.
    intros Hok H He. destruct (kind_of (ctype c)) as [kd|] eqn:E.
    2:{ destruct Hok as (_ & _ & Hok). rewrite E in Hok. destruct Hok. }
    pose proof E as E'. apply lookup_in in E'. cbn [In] in E'.
    destruct E' as [E'|[E'|[E'|[E'|[E'|[E'|[E'|[E'|[E'|[E'|[]]]]]]]]]]]; injection E' as Ht Hk; symmetry in Ht; rewrite <- Hk in E.
    - apply (not_correct k c es op); auto.
    - apply (gate_correct k c es op "AND" AND); auto. cbn; auto 9.
    - apply (gate_correct k c es op "NAND" NAND); auto. cbn; auto 9.
    - apply (gate_correct k c es op "OR" OR); auto. cbn; auto 9.
    - apply (gate_correct k c es op "NOR" NOR); auto. cbn; auto 9.
    - apply (gate_correct k c es op "XOR" XOR); auto. cbn; auto 9.
    - apply (gate_correct k c es op "XNOR" XNOR); auto. cbn; auto 9.
    - apply (lut_correct k c es op 2 "2"); auto. cbn; auto 9.
    - apply (lut_correct k c es op 3 "3"); auto. cbn; auto 9.
    - apply (lut_correct k c es op 4 "4"); auto. cbn; auto 9.
  Qed.

  Lemma named_mono_add st w v e : named st v <> None -> named (add_wire_value st w e) v <> None.
  Proof. unfold add_wire_value. destruct (named st w); [auto|]. cbn [named]. unfold set. destruct (String.eqb v w); [discriminate|auto]. Qed.
  Lemma named_mono_result st st' s e v : add_result_bit m st s e = Some st' -> named st v <> None -> named st' v <> None.
  Proof.
    unfold add_result_bit. intros H Hv. destruct (as_wire m s) as [w|]; [injection H as <-; apply named_mono_add; auto|].
    destruct s as [|[c|w i] [|? ?]]; try discriminate H. destruct (ret st w) as [l|].
    - destruct (Nat.ltb i (length l)); [|discriminate H]. injection H as <-. exact Hv.
    - destruct (named st w); [|discriminate H]. injection H as <-. exact Hv.
  Qed.
  Lemma named_mono_bits v : forall l r st st', connect_bits m st l r = Some st' -> named st v <> None -> named st' v <> None.
  Proof.
    induction l as [|a l IH]; intros r st st' H Hv; [destruct r; injection H as <-; exact Hv|]. destruct r as [|b r]; [discriminate H|].
    cbn [connect_bits] in H. destruct (get_bit m st [b]) as [e|]; [|discriminate H].
    destruct (add_result_bit m st [a] e) as [st1|] eqn:E; [|discriminate H]. apply (IH _ _ _ H). apply (named_mono_result _ _ _ _ _ E Hv).
  Qed.
  Lemma named_mono_connection st st' l r v : import_connection m st (l, r) = Some st' -> named st v <> None -> named st' v <> None.
  Proof.
    unfold import_connection. intros H Hv. destruct (existsb is_const l); [discriminate H|]. destruct (_ || _).
    - apply (named_mono_bits v _ _ _ _ H Hv).
    - destruct (get_bit m st r) as [e|]; [|discriminate H]. apply (named_mono_result _ _ _ _ _ H Hv).
  Qed.
  Lemma copy_named st st' l r w i : copies m l r -> In (Bit w i) l -> import_connection m st (l, r) = Some st' -> named st' w <> None.
  Proof.
    intros Hc Hi H. unfold import_connection in H. destruct (existsb is_const l); [discriminate H|]. rewrite (copy_branch l r Hc) in H.
    destruct (get_bit m st r) as [e|]; [|discriminate H]. destruct Hc as (x & y & Hx & Hy & -> & ->). unfold add_result_bit in H.
    unfold whole in Hi. apply in_map_iff in Hi. destruct Hi as (j & E & Hj). injection E as <- <-. apply in_seq in Hj.
    rewrite (as_wire_whole _ _ names Hx) in H by lia. injection H as <-. unfold add_wire_value. destruct (named st (wname x)) eqn:En.
    - rewrite En. discriminate.
    - cbn [named]. unfold set. rewrite String.eqb_refl. discriminate.
  Qed.

  Definition ready (done : list step) (s : step) : Prop := ~ is_copy m s ->
    forall x i, In x outs -> width x <> 1 -> reads s (Bit (wname x) i) ->
    exists s', In s' done /\ drives s' (Bit (wname x) i) /\ ~ is_copy m s'.
  Definition good (done : list step) (st : state) : Prop := exists kb wb, inv kb wb st /\
    (forall b, In b kb <-> exists s, In s done /\ drives s b /\ ~ is_copy m s) /\
    (forall b, In b wb <-> exists s, In s done /\ drives s b) /\
    (forall s w i, In s done -> is_copy m s -> drives s (Bit w i) -> named st w <> None).

  Lemma input_of_inputs k c s : In s (get_inputs k c) -> exists p, In (p, s) (conns c) /\ p <> "\Y".
  Proof.
    intro H. assert (H' : exists p, In (p, s) (conns c) /\ contains "Y"%char p = false).
    { destruct k; cbn [get_inputs] in H.
      - unfold gate_inputs in H. apply in_map_iff in H. destruct H as ([p s'] & E & H). cbn in E. subst s'. apply filter_In in H. destruct H as [H E].
        cbn [fst] in E. apply negb_true_iff in E. eauto.
      - unfold lut_ports in H. apply in_rev in H. apply in_map_iff in H. destruct H as ([p s'] & E & H). cbn in E. subst s'.
        apply filter_In in H. destruct H as [H E]. cbn [fst] in E. apply negb_true_iff in E. apply orb_false_iff in E. destruct E. eauto. }
    destruct H' as (p & Hp & E). exists p. split; auto. intros ->. discriminate E.
  Qed.

  Lemma cell_step k done st st' name c : lookup name (cells m) = Some c -> cell_ok c ->
    (forall p s, In (p, s) (conns c) -> in_range m s) -> cell_value rho c = port_value rho c "\Y" ->
    good done st -> ready done (Cell c) -> import_cell k m st name = Some st' -> good (done ++ [Cell c]) st'.
  Proof.
    intros Hc Hok Hin Hv (kb & wb & Hinv & Hkb & Hwb & Hcp) Hready H. unfold import_cell in H. rewrite Hc in H.
    destruct (all (map (get_bit m st) (get_inputs k c))) as [es|] eqn:Ei; [|discriminate H].
    destruct (create_op k c es) as [op|] eqn:Eo; [|discriminate H]. destruct (get_output c) as [out|] eqn:Eu; [|discriminate H].
    assert (Hes : map (fun e => as_bit (eval args e)) es = map Some (map one (get_inputs k c))).
    { apply (inputs_eval kb wb st Hinv); [|exact Ei]. intros s Hs. destruct (input_of_inputs _ _ _ Hs) as (p & Hp & Hne).
      split; [apply (proj1 (proj2 Hok) p s Hp)|]. split; [apply (Hin p s Hp)|]. intros x i Hx Hw Hb. apply Hkb.
      apply Hready; auto. exists p, s. auto. }
    destruct (create_correct k c es op Hok Eo Hes) as (b & Hb & Hop).
    pose proof (lookup_in _ _ _ Eu) as Hy. assert (L := proj1 (proj2 Hok) _ _ Hy). destruct out as [|y [|? ?]]; try discriminate L.
    assert (Hyv : bit_value rho y = b). { rewrite Hb in Hv. unfold port_value in Hv. unfold get_output in Eu. rewrite Eu in Hv. congruence. }
    rewrite <- Hyv in Hop. pose proof (add_result_one kb wb st st' y op Hinv (Hin _ _ Hy) Hop H) as Hinv'.
    assert (Hd : forall b', drives (Cell c) b' <-> y = b').
    { intro b'. cbn [drives]. split.
      - intros (sg & Hsg & Hb'). assert (sg = [y]). { apply (in_lookup _ _ _ (proj1 Hok)) in Hsg. unfold get_output in Eu. congruence. }
        subst sg. destruct Hb' as [Hb'|[]]. exact Hb'.
      - intros <-. exists [y]. split; [exact Hy|left; reflexivity]. }
    exists (y :: kb), (y :: wb). split; [exact Hinv'|]. split; [|split].
    - intro b'. cbn [In]. rewrite Hkb. split.
      + intros [E|(s & Hs & Hs2)]; [exists (Cell c); split; [apply in_or_app; right; left; reflexivity|split; [apply Hd; exact E|intros []]]
                                  |exists s; split; [apply in_or_app; left; exact Hs|exact Hs2]].
      + intros (s & Hs & Hs2). apply in_app_or in Hs. destruct Hs as [Hs|[<-|[]]]; [right; eauto|left; apply Hd; tauto].
    - intro b'. cbn [In]. rewrite Hwb. split.
      + intros [E|(s & Hs & Hs2)]; [exists (Cell c); split; [apply in_or_app; right; left; reflexivity|apply Hd; exact E]
                                  |exists s; split; [apply in_or_app; left; exact Hs|exact Hs2]].
      + intros (s & Hs & Hs2). apply in_app_or in Hs. destruct Hs as [Hs|[<-|[]]]; [right; eauto|left; apply Hd; tauto].
    - intros s w i Hs Hcopy Hdr. apply in_app_or in Hs. destruct Hs as [Hs|[<-|[]]]; [|destruct Hcopy].
      apply (named_mono_result _ _ _ _ _ H). apply (Hcp s w i); auto.
  Qed.

  Lemma connection_step done st st' l r : in_range m l -> in_range m r -> signal_value rho l = signal_value rho r ->
    good done st -> ready done (Connect l r) -> import_connection m st (l, r) = Some st' -> good (done ++ [Connect l r]) st'.
  Proof.
    intros Hl Hr Hv (kb & wb & Hinv & Hkb & Hwb & Hcp) Hready H.
    assert (Hw' : forall b, In b (rev l ++ wb) <-> exists s, In s (done ++ [Connect l r]) /\ drives s b).
    { intro b. rewrite in_app_iff, <- in_rev, Hwb. split.
      - intros [Hb|(s & Hs & Hs2)]; [exists (Connect l r); split; [apply in_or_app; right; left; reflexivity|exact Hb]
                                    |exists s; split; [apply in_or_app; left; exact Hs|exact Hs2]].
      - intros (s & Hs & Hs2). apply in_app_or in Hs. destruct Hs as [Hs|[<-|[]]]; [right; eauto|left; exact Hs2]. }
    assert (Hn' : forall s w i, In s (done ++ [Connect l r]) -> is_copy m s -> drives s (Bit w i) -> named st' w <> None).
    { intros s w i Hs Hcopy Hdr. apply in_app_or in Hs. destruct Hs as [Hs|[<-|[]]].
      - apply (named_mono_connection _ _ _ _ _ H). apply (Hcp s w i); auto.
      - apply (copy_named st st' l r w i); auto. }
    destruct (connection_inv kb wb st st' l r Hinv Hl Hr Hv) as [[Hc Hinv']|[Hc Hinv']].
    - intros Hc x i Hx Hw Hi. apply Hkb. apply Hready; auto.
    - exact H.
    - exists kb, (rev l ++ wb). split; [exact Hinv'|]. split; [|split; auto]. intro b. rewrite Hkb. split.
      + intros (s & Hs & Hs2). exists s. split; [apply in_or_app; left; exact Hs|exact Hs2].
      + intros (s & Hs & Hs2). apply in_app_or in Hs. destruct Hs as [Hs|[<-|[]]]; [eauto|]. destruct Hs2 as [_ Hs2]. contradiction.
    - exists (rev l ++ kb), (rev l ++ wb). split; [exact Hinv'|]. split; [|split; auto]. intro b. rewrite in_app_iff, <- in_rev, Hkb. split.
      + intros [Hb|(s & Hs & Hs2)]; [exists (Connect l r); split; [apply in_or_app; right; left; reflexivity|split; [exact Hb|exact Hc]]
                                    |exists s; split; [apply in_or_app; left; exact Hs|exact Hs2]].
      + intros (s & Hs & Hs2). apply in_app_or in Hs. destruct Hs as [Hs|[<-|[]]]; [right; eauto|left; exact (proj1 Hs2)].
  Qed.

  Lemma run_steps {A} (f : state -> A -> option state) (tr : A -> step) : forall l done st st' rest,
    in_order m outs (done ++ map tr l ++ rest) -> good done st ->
    (forall a, In a l -> forall done st st', good done st -> ready done (tr a) -> f st a = Some st' -> good (done ++ [tr a]) st') ->
    run_all f st l = Some st' -> good (done ++ map tr l) st'.
  Proof.
    induction l as [|a l IH]; intros done st st' rest Hord Hg Hf H; cbn [run_all map] in *.
    - injection H as <-. rewrite app_nil_r. exact Hg.
    - destruct (f st a) as [st1|] eqn:E; [|discriminate H].
      replace (done ++ tr a :: map tr l) with ((done ++ [tr a]) ++ map tr l) by (rewrite <- app_assoc; reflexivity).
      apply (IH (done ++ [tr a]) st1 st' rest).
      + rewrite <- !app_assoc. exact Hord.
      + apply (Hf a (or_introl eq_refl) done st st1 Hg); [|exact E]. intros Hc x i Hx Hw Hr.
        apply (Hord done (tr a) (map tr l ++ rest) eq_refl Hc x i Hx Hw Hr).
      + intros b Hb. apply Hf. right. exact Hb.
      + exact H.
  Qed.

  Lemma run_all_map {A B} (g : B -> A) (f : state -> A -> option state) : forall l st, run_all f st (map g l) = run_all (fun st b => f st (g b)) st l.
  Proof. induction l as [|b l IH]; intro st; cbn [map run_all]; auto. destruct (f st (g b)); auto. Qed.

  Lemma named_initial : forall l n st w e, 
    named (fold_left (fun st (ix : nat * wire) => add_wire_value st (wname (snd ix)) (Arg (fst ix))) (combine (seq n (length l)) l) st) w = Some e ->
    named st w = Some e \/ exists i x, nth_error l i = Some x /\ wname x = w /\ e = Arg (n + i).
  Proof.
    induction l as [|x l IH]; intros n st w e H; [left; exact H|]. cbn [length seq combine fold_left fst snd] in H.
    apply IH in H. destruct H as [H|(i & y & Hy & Hw & He)].
    - unfold add_wire_value in H. destruct (named st (wname x)) eqn:E; [left; exact H|]. cbn [named] in H. unfold set in H.
      destruct (String.eqb_spec w (wname x)) as [->|Hne]; [|left; exact H]. injection H as <-. right. exists 0, x. rewrite Nat.add_0_r. auto.
    - right. exists (S i), y. split; [exact Hy|]. split; [exact Hw|]. rewrite He. f_equal. lia.
  Qed.
  Lemma ret_initial : forall l st, ret (fold_left (fun st (ix : nat * wire) => add_wire_value st (wname (snd ix)) (Arg (fst ix))) l st) = ret st.
  Proof. induction l as [|x l IH]; intro st; [reflexivity|]. cbn [fold_left]. rewrite IH. apply add_ret. Qed.

  Lemma initial_good : good [] (initial m ins).
  Proof.
    exists [], []. split; [|split; [|split]].
    - split; [|split; [|split]].
      + intros w e H. unfold initial in H. apply named_initial in H. destruct H as [H|(i & x & Hx & Hw & ->)]; [discriminate H|].
        assert (Hin : In x ins) by (apply (nth_error_In _ _ Hx)). exists x. destruct Hports as (_ & Hi & _). apply Hi in Hin.
        split; [tauto|]. split; [exact Hw|]. split; [|left; tauto]. cbn [eval Nat.add]. unfold args. rewrite nth_error_map, Hx. reflexivity.
      + intros w l H. unfold initial in H. rewrite ret_initial in H. cbn [ret] in H. destruct (find_wire m w) as [x|] eqn:E; [|discriminate H].
        apply find_wire_some in E. destruct E as [Hx Hw]. destruct (is_ret x) eqn:Hr; [|discriminate H]. injection H as <-.
        exists x. repeat split; auto; [apply repeat_length|intros []|]. intros _. apply nth_error_In in H0. apply repeat_spec in H0. exact H0.
      + intros x Hx Hr. unfold initial. rewrite ret_initial. cbn [ret]. rewrite (find_wire_in _ _ names Hx), Hr. discriminate.
      + intros b [].
    - intro b. split; [intros []|intros (s & [] & _)].
    - intro b. split; [intros []|intros (s & [] & _)].
    - intros s w i [].
  Qed.

  Lemma result_value steps st x e : good steps st -> In x outs -> returned st x = Some e ->
    (forall b, driven m b <-> exists s, In s steps /\ drives s b) ->
    exists rho', eval args e = Some (wire_value rho' x) /\
      forall i, i < width x -> (driven m (Bit (wname x) i) -> rho' (wname x) i = rho (wname x) i) /\
                               (~ driven m (Bit (wname x) i) -> rho' (wname x) i = false).
  Proof.
    intros (kb & wb & (Hn & Hr & Hd & Hs) & Hkb & Hwb & Hcp) Hx H Hdr. apply outs_ret in Hx. destruct Hx as [Hx Hret]. unfold returned in H.
    destruct (named st (wname x)) as [e'|] eqn:En.
    - injection H as ->. exists rho. destruct (Hn _ _ En) as (y & Hy & Hyw & He & Hd'). assert (x = y) by (apply same_wire; congruence). subst y.
      split; [exact He|]. intros i Hi. split; [reflexivity|]. intro Hnd. exfalso. destruct Hd' as [Hd'|Hd'].
      + unfold is_ret in Hret. rewrite Hd' in Hret. discriminate Hret.
      + apply Hnd, Hdr, Hwb, Hd', Hi.
    - destruct (ret st (wname x)) as [l|] eqn:Er; [|discriminate H]. destruct (Nat.ltb_spec 1 (length l)) as [Hl|]; [|discriminate H]. injection H as <-.
      destruct (Hr _ _ Er) as (y & Hy & Hyw & _ & Hlen & Hb). assert (x = y) by (apply same_wire; congruence). subst y.
      assert (Hw1 : width x <> 1) by lia. specialize (Hb Hw1).
      exists (fun w i => if in_dec bit_dec (Bit w i) kb then rho w i else false). split.
      + unfold wire_value. destruct (Nat.eqb_spec (width x) 1); [congruence|]. cbn [eval]. rewrite <- Hlen.
        rewrite (proj2 (all_spec _ (map (fun i => if in_dec bit_dec (Bit (wname x) i) kb then rho (wname x) i else false) (seq 0 (length l))))); [reflexivity|].
        apply nth_error_ext. intro i. rewrite !nth_error_map. destruct (nth_error l i) as [e|] eqn:Ei.
        * assert (i < length l) by (apply nth_error_Some; congruence). rewrite (nth_error_nth' (seq 0 (length l)) 0) by (rewrite seq_length; auto).
          rewrite seq_nth by auto. cbn [option_map Nat.add]. f_equal. destruct (Hb i e Ei) as [H1 H2].
          destruct (in_dec bit_dec (Bit (wname x) i) kb) as [Hk|Hk]; [rewrite (H1 Hk); reflexivity|rewrite (H2 Hk); reflexivity].
        * apply nth_error_None in Ei. replace (nth_error (seq 0 (length l)) i) with (@None nat); [reflexivity|].
          symmetry. apply nth_error_None. rewrite seq_length. exact Ei.
      + intros i Hi. destruct (in_dec bit_dec (Bit (wname x) i) kb) as [Hk|Hk]; split; auto.
        * intro Hnd. exfalso. apply Hnd, Hdr. apply Hkb in Hk. destruct Hk as (s & Hs1 & Hs2 & _). eauto.
        * intro Hdv. exfalso. apply Hk, Hkb. apply Hdr in Hdv. destruct Hdv as (s & Hs1 & Hs2). exists s. split; [exact Hs1|]. split; [exact Hs2|].
          intro Hc. apply (Hcp s _ _ Hs1 Hc Hs2). exact En.
  Qed.
End Sound.

Section Ports.
  Variables (m : module) (ins outs : list wire).
  Hypothesis Hports : ports_ok m ins outs.
  Lemma nodup_ports : NoDup (ins ++ outs).
  Proof. destruct Hports as (_ & _ & _ & H). apply (NoDup_map_inv port_id). rewrite H. apply seq_NoDup. Qed.
  Lemma nodup_wires : NoDup (wires m).
  Proof. destruct Hports as (H & _). apply (NoDup_map_inv wname). exact H. Qed.
  Lemma nodup_l {A} (l l' : list A) : NoDup (l ++ l') -> NoDup l.
  Proof.
    induction l as [|a l IH]; intro H; [constructor|]. cbn [app] in H. inversion H; subst. constructor; auto. intro Ha.
    match goal with H : ~ In _ _ |- _ => apply H end. apply in_or_app. auto.
  Qed.
  Lemma nodup_r {A} (l l' : list A) : NoDup (l ++ l') -> NoDup l'.
  Proof. induction l as [|a l IH]; intro H; [exact H|]. apply IH. cbn [app] in H. inversion H; auto. Qed.

  Lemma num_inputs : length (filter port_input (wires m)) = length ins.
  Proof.
    apply Permutation_length. apply NoDup_Permutation.
    - apply NoDup_filter, nodup_wires.
    - apply (nodup_l ins outs), nodup_ports.
    - intro x. rewrite filter_In. destruct Hports as (_ & H & _). rewrite (H x). tauto.
  Qed.
  Lemma num_rets : length (filter is_ret (wires m)) = length outs.
  Proof.
    apply Permutation_length. apply NoDup_Permutation.
    - apply NoDup_filter, nodup_wires.
    - apply (nodup_r ins outs), nodup_ports.
    - intro x. rewrite filter_In. destruct Hports as (_ & _ & H & _). rewrite (H x). unfold is_ret.
      destruct (port_input x), (port_output x); cbn; intuition congruence.
  Qed.
  Lemma port_ids i x : nth_error (ins ++ outs) i = Some x -> port_id x = S i.
  Proof.
    intro H. destruct Hports as (_ & _ & _ & E). assert (L : i < length ins + length outs) by (rewrite <- app_length; apply nth_error_Some; congruence).
    assert (A : nth_error (map port_id (ins ++ outs)) i = Some (port_id x)) by (rewrite nth_error_map, H; reflexivity).
    rewrite E, (nth_error_nth' _ 0) in A by (rewrite seq_length; exact L). rewrite seq_nth in A by exact L. injection A as A. lia.
  Qed.
  Lemma find_port f x i : (forall y, In y (wires m) -> f y = true -> In y (ins ++ outs)) -> nth_error (ins ++ outs) i = Some x ->
    In x (wires m) -> f x = true -> find (fun y => f y && Nat.eqb (port_id y) (S i)) (wires m) = Some x.
  Proof.
    intros Hf Hx Hin Hfx. destruct (find _ (wires m)) as [y|] eqn:E.
    - apply find_some in E. destruct E as [Hy E]. apply andb_true_iff in E. destruct E as [Hfy E]. apply Nat.eqb_eq in E.
      destruct (In_nth_error _ _ (Hf y Hy Hfy)) as [j Hj]. pose proof (port_ids _ _ Hj). assert (i = j) by lia. subst j. congruence.
    - exfalso. pose proof (find_none _ _ E x Hin) as N. cbn beta in N. rewrite Hfx, (port_ids _ _ Hx), Nat.eqb_refl in N. discriminate N.
  Qed.
  Lemma args_found : all (map (arg_at m) (seq 0 (length ins))) = Some ins.
  Proof.
    apply all_spec. apply nth_error_ext. intro i. rewrite !nth_error_map. destruct (nth_error ins i) as [x|] eqn:E.
    - assert (i < length ins) by (apply nth_error_Some; congruence). rewrite (nth_error_nth' (seq 0 (length ins)) 0) by (rewrite seq_length; auto).
      rewrite seq_nth by auto. cbn [option_map Nat.add]. f_equal. destruct Hports as (_ & Hi & _).
      assert (Hx : In x ins) by (apply (nth_error_In _ _ E)). unfold arg_at. apply (find_port port_input).
      + intros y Hy Hp. apply in_or_app. left. apply Hi. auto.
      + rewrite nth_error_app1 by auto. exact E.
      + apply Hi. exact Hx.
      + apply Hi. exact Hx.
    - apply nth_error_None in E. replace (nth_error (seq 0 (length ins)) i) with (@None nat); [reflexivity|].
      symmetry. apply nth_error_None. rewrite seq_length. exact E.
  Qed.
  Lemma rets_found : all (map (fun i => ret_at m (length ins + i)) (seq 0 (length outs))) = Some outs.
  Proof.
    apply all_spec. apply nth_error_ext. intro i. rewrite !nth_error_map. destruct (nth_error outs i) as [x|] eqn:E.
    - assert (i < length outs) by (apply nth_error_Some; congruence). rewrite (nth_error_nth' (seq 0 (length outs)) 0) by (rewrite seq_length; auto).
      rewrite seq_nth by auto. cbn [option_map Nat.add]. f_equal.
      assert (Hx : In x outs) by (apply (nth_error_In _ _ E)). unfold ret_at. apply (find_port is_ret).
      + intros y Hy Hp. apply in_or_app. right. apply (outs_ret m ins outs Hports). auto.
      + rewrite nth_error_app2 by lia. replace (length ins + i - length ins) with i by lia. exact E.
      + apply (outs_ret m ins outs Hports). exact Hx.
      + apply (outs_ret m ins outs Hports). exact Hx.
    - apply nth_error_None in E. replace (nth_error (seq 0 (length outs)) i) with (@None nat); [reflexivity|].
      symmetry. apply nth_error_None. rewrite seq_length. exact E.
  Qed.
End Ports.

Lemma import_sound k m ins outs cs f rho : module_ok m ins outs -> Permutation cs (cells m) ->
  let steps := map (fun nc : string * cell => Cell (snd nc)) cs ++ map (fun lr : signal * signal => Connect (fst lr) (snd lr)) (connections m) in
  in_order m outs steps -> import_module k m (map fst cs) = Some f -> consistent m rho ->
  exists vs, run f (map (wire_value rho) ins) = Some vs /\
    Forall2 (fun x v => exists rho', v = wire_value rho' x /\
      forall i, i < width x -> (driven m (Bit (wname x) i) -> rho' (wname x) i = rho (wname x) i) /\
                               (~ driven m (Bit (wname x) i) -> rho' (wname x) i = false)) outs vs.
Proof.
  intros (Hports & Hnc & Hcells & Hconns) Hperm steps Hord H (Hv1 & Hv2). unfold import_module in H.
  rewrite (num_inputs m ins outs Hports), (num_rets m ins outs Hports), (args_found m ins outs Hports) in H.
  destruct (run_all (import_cell k m) (initial m ins) (map fst cs)) as [st1|] eqn:E1; [|discriminate H].
  destruct (run_all (import_connection m) st1 (connections m)) as [st2|] eqn:E2; [|discriminate H].
  rewrite (rets_found m ins outs Hports) in H.
  rewrite run_all_map in E1.
  assert (G1 : good m ins rho ([] ++ map (fun nc : string * cell => Cell (snd nc)) cs) st1).
  { apply (run_steps m ins outs rho (fun st nc => import_cell k m st (fst nc)) (fun nc => Cell (snd nc)) cs [] (initial m ins) st1
             (map (fun lr : signal * signal => Connect (fst lr) (snd lr)) (connections m))); auto.
    - apply (initial_good m ins outs rho Hports).
    - intros [n c] Hin done st st' Hg Hr Hi. cbn [fst snd] in *. apply (Permutation_in _ Hperm) in Hin. destruct (Hcells _ _ Hin) as [Hok Hrange].
      apply (cell_step m ins outs rho Hports k done st st' n c); auto; [apply in_lookup; auto|apply (Hv1 n); auto]. }
  cbn [app] in G1.
  assert (G2 : good m ins rho steps st2).
  { unfold steps. apply (run_steps m ins outs rho (import_connection m) (fun lr => Connect (fst lr) (snd lr)) (connections m) _ st1 st2 []); auto.
    - rewrite app_nil_r. exact Hord.
    - intros [l r] Hin done st st' Hg Hr Hi. cbn [fst snd] in *. destruct (Hconns _ _ Hin) as (_ & Hl & Hrr).
      apply (connection_step m ins outs rho Hports done st st' l r); auto. }
  assert (Hdr : forall b, driven m b <-> exists s, In s steps /\ drives s b).
  { intro b. unfold driven, steps. split.
    - intros [(n & c & Hc & Hd)|(l & r & Hc & Hd)].
      + exists (Cell c). split; [|exact Hd]. apply in_or_app. left. apply (in_map (fun nc : string * cell => Cell (snd nc)) cs (n, c)).
        apply (Permutation_in _ (Permutation_sym Hperm)). exact Hc.
      + exists (Connect l r). split; [|exact Hd]. apply in_or_app. right.
        apply (in_map (fun lr : signal * signal => Connect (fst lr) (snd lr)) _ (l, r)). exact Hc.
    - intros (s & Hs & Hd). apply in_app_or in Hs. destruct Hs as [Hs|Hs]; apply in_map_iff in Hs.
      + destruct Hs as ([n c] & <- & Hc). left. exists n, c. split; [apply (Permutation_in _ Hperm); exact Hc|exact Hd].
      + destruct Hs as ([l r] & <- & Hc). right. exists l, r. auto. }
  apply all_spec in H.
  assert (R : forall os fs, incl os outs -> map (returned st2) os = map Some fs -> exists vs, run fs (map (wire_value rho) ins) = Some vs /\
    Forall2 (fun x v => exists rho', v = wire_value rho' x /\
      forall i, i < width x -> (driven m (Bit (wname x) i) -> rho' (wname x) i = rho (wname x) i) /\
                               (~ driven m (Bit (wname x) i) -> rho' (wname x) i = false)) os vs).
  { induction os as [|x os IH]; intros [|e fs] Hi Hm; try discriminate Hm; [exists []; split; [reflexivity|constructor]|].
    cbn [map] in Hm. injection Hm as He Hm. destruct (IH fs) as (vs & Hvs & HF); [intros y Hy; apply Hi; right; exact Hy|exact Hm|].
    destruct (result_value m ins outs rho Hports steps st2 x e G2 (Hi x (or_introl eq_refl)) He Hdr) as (rho' & Hev & Hrho).
    exists (wire_value rho' x :: vs). split.
    - unfold run in *. cbn [map all]. rewrite Hev, Hvs. reflexivity.
    - constructor; [eauto|exact HF]. }
  apply (R outs f); [intros x Hx; exact Hx|exact H].
Qed.

Section Success.
  Variables (m : module) (ins outs : list wire).
  Hypothesis Hok : module_ok m ins outs.
  Hypothesis Hsimple : simple m outs.
  Lemma Hports : ports_ok m ins outs.
  Proof. exact (proj1 Hok). Qed.

  Definition avail (db : list bit) (st : state) : Prop :=
    (forall x, In x (wires m) -> port_input x = true -> named st (wname x) <> None) /\
    (forall x, In x (wires m) -> width x = 1 -> In (Bit (wname x) 0) db -> named st (wname x) <> None) /\
    (forall x, In x (wires m) -> is_ret x = true -> exists l, ret st (wname x) = Some l /\ length l = width x) /\
    (forall x, In x (wires m) -> is_ret x = false -> ret st (wname x) = None).

  Definition readable (db : list bit) (s : signal) : Prop :=
    forall x i, In x (wires m) -> port_input x = false -> In (Bit (wname x) i) s -> In (Bit (wname x) i) db.

  Lemma not_whole x i : In x (wires m) -> width x <> 1 -> as_wire m [Bit (wname x) i] = None.
  Proof.
    intros Hx Hw. destruct (as_wire m [Bit (wname x) i]) as [w|] eqn:E; [|reflexivity]. apply as_wire_some in E. destruct E as (y & Hy & _ & E).
    apply whole_one in E. destruct E as [E1 E2]. injection E2 as E2 _. assert (x = y) by (apply (same_wire m ins outs Hports); auto). congruence.
  Qed.
  Lemma one_whole x i : In x (wires m) -> width x = 1 -> i < width x -> as_wire m [Bit (wname x) i] = Some (wname x) /\ i = 0.
  Proof.
    intros Hx Hw Hi. assert (i = 0) by lia. subst i. split; [|reflexivity].
    replace [Bit (wname x) 0] with (whole x) by (unfold whole; rewrite Hw; reflexivity). apply as_wire_whole; auto; [apply (proj1 Hports)|lia].
  Qed.
  Lemma internal_one x : In x (wires m) -> port_input x = false -> is_ret x = false -> width x = 1.
  Proof. intros Hx Hi Hr. apply (proj1 Hsimple); auto. unfold is_ret in Hr. rewrite Hi in Hr. exact Hr. Qed.

  Lemma get_bit_some db st b : avail db st -> in_range m [b] -> readable db [b] -> exists e, get_bit m st [b] = Some e.
  Proof.
    intros (A1 & A2 & A3 & A4) Hin Hr. unfold get_bit. destruct b as [c|w i]; [eexists; reflexivity|].
    destruct (Hin w i (or_introl eq_refl)) as (x & Hx & <- & Hi). destruct (Nat.eq_dec (width x) 1) as [W|W].
    - destruct (one_whole x i Hx W Hi) as [-> ->]. assert (N : named st (wname x) <> None).
      { destruct (port_input x) eqn:P; [auto|]. apply A2; auto. apply (Hr x 0); auto. left. reflexivity. }
      destruct (named st (wname x)) as [e|]; [eauto|congruence].
    - rewrite (not_whole x i Hx W). cbn [forallb is_const andb]. destruct (is_ret x) eqn:R.
      + destruct (A3 x Hx R) as (l & -> & L). destruct (nth_error l i) as [e|] eqn:E; [eauto|]. apply nth_error_None in E. lia.
      + rewrite (A4 x Hx R). assert (P : port_input x = true). { destruct (port_input x) eqn:P; [reflexivity|]. pose proof (internal_one x Hx P R). congruence. }
        specialize (A1 x Hx P). destruct (named st (wname x)) as [e|]; [cbn; eauto|congruence].
  Qed.

  Lemma add_result_some db st b e : avail db st -> in_range m [b] -> is_const b = false ->
    exists st', add_result_bit m st [b] e = Some st' /\ avail (b :: db) st'.
  Proof.
    intros (A1 & A2 & A3 & A4) Hin Hc. destruct b as [c|w i]; [discriminate Hc|].
    destruct (Hin w i (or_introl eq_refl)) as (x & Hx & <- & Hi). unfold add_result_bit. destruct (Nat.eq_dec (width x) 1) as [W|W].
    - destruct (one_whole x i Hx W Hi) as [-> ->]. eexists; split; [reflexivity|]. split; [|split; [|split]].
      + intros y Hy P. apply named_mono_add; auto.
      + intros y Hy Hy1 [E|Hb]; [|apply named_mono_add; auto]. injection E as E. rewrite <- E. unfold add_wire_value.
        destruct (named st (wname x)) eqn:N; [rewrite N; discriminate|]. cbn [named]. unfold set. rewrite String.eqb_refl. discriminate.
      + intros y Hy R. rewrite add_ret. auto.
      + intros y Hy R. rewrite add_ret. auto.
    - rewrite (not_whole x i Hx W).
      assert (A2' : forall y, In y (wires m) -> width y = 1 -> In (Bit (wname y) 0) (Bit (wname x) i :: db) -> named st (wname y) <> None).
      { intros y Hy Hy1 [E|Hb]; [|auto]. injection E as E _. assert (x = y) by (apply (same_wire m ins outs Hports); auto). congruence. }
      destruct (is_ret x) eqn:R.
      + destruct (A3 x Hx R) as (l & El & L). rewrite El. destruct (Nat.ltb_spec i (length l)); [|lia]. eexists; split; [reflexivity|].
        split; [exact A1|]. split; [exact A2'|]. cbn [ret]. split.
        * intros y Hy Ry. unfold set. destruct (String.eqb_spec (wname y) (wname x)) as [E|E]; [|auto].
          assert (x = y) by (apply (same_wire m ins outs Hports); auto). subst y. eexists; split; [reflexivity|]. rewrite length_replace. exact L.
        * intros y Hy Ry. unfold set. destruct (String.eqb_spec (wname y) (wname x)) as [E|E]; [|auto].
          assert (x = y) by (apply (same_wire m ins outs Hports); auto). congruence.
      + rewrite (A4 x Hx R). assert (P : port_input x = true). { destruct (port_input x) eqn:P; [reflexivity|]. pose proof (internal_one x Hx P R). congruence. }
        pose proof (A1 x Hx P) as N. destruct (named st (wname x)) as [e'|]; [|congruence]. eexists; split; [reflexivity|]. split; auto.
  Qed.

  Lemma readable_one db s b : readable db s -> In b s -> readable db [b].
  Proof. intros H Hb x i Hx P [E|[]]. apply (H x i); auto. rewrite <- E. exact Hb. Qed.

  Lemma connect_bits_some : forall l r db st, avail db st -> length l = length r -> in_range m l -> in_range m r -> readable db r ->
    existsb is_const l = false -> exists st', connect_bits m st l r = Some st' /\ avail (rev l ++ db) st'.
  Proof.
    induction l as [|a l IH]; intros [|b r] db st Ha HL Hl Hr Hre Hc; try discriminate HL; [exists st; split; [reflexivity|exact Ha]|].
    cbn [connect_bits existsb] in *. apply orb_false_iff in Hc. destruct Hc as [Hc1 Hc2].
    destruct (get_bit_some db st b Ha (in_range_one m _ b Hr (or_introl eq_refl)) (readable_one db _ b Hre (or_introl eq_refl))) as [e ->].
    destruct (add_result_some db st a e Ha (in_range_one m _ a Hl (or_introl eq_refl)) Hc1) as (st1 & -> & Ha1).
    destruct (IH r (a :: db) st1 Ha1) as (st' & E & Ha'); auto.
    - intros w i Hi. apply Hl. right. exact Hi.
    - intros w i Hi. apply Hr. right. exact Hi.
    - intros x i Hx P Hi. right. apply (Hre x i); auto. right. exact Hi.
    - exists st'. split; [exact E|]. cbn [rev]. rewrite <- app_assoc. exact Ha'.
  Qed.

  Lemma avail_more db db' st : (forall b, In b db' -> In b db) -> avail db st -> avail db' st.
  Proof. intros H (A1 & A2 & A3 & A4). repeat split; auto. Qed.

  Lemma chunks_run w n i : n <> 0 -> chunks (map (Bit w) (seq i n)) = 1.
  Proof.
    intro H. pose proof (chunks_seq w n i). destruct (chunks (map (Bit w) (seq i n))) as [|[|k]] eqn:E; [|reflexivity|lia].
    apply chunks_zero in E. destruct n; [congruence|discriminate E].
  Qed.

  Lemma connection_some db st l r : In (l, r) (connections m) -> avail db st -> readable db r ->
    exists st', import_connection m st (l, r) = Some st' /\ avail (rev l ++ db) st'.
  Proof.
    intros Hc Ha Hre. pose proof Hok as (_ & _ & _ & Hconns). destruct (Hconns l r Hc) as (HL & Hl & Hr).
    pose proof Hsimple as (S1 & _ & S3 & _ & S5). destruct (S3 l r Hc) as [Hne Hcl]. unfold import_connection.
    assert (Hcl' : existsb is_const l = false).
    { destruct (existsb is_const l) eqn:E; [|reflexivity]. apply existsb_exists in E. destruct E as ([b|w i] & Hb & E); [|discriminate E]. destruct (Hcl b Hb). }
    rewrite Hcl'. destruct (_ || _) eqn:E; [apply connect_bits_some; auto|].
    apply orb_false_iff in E. destruct E as [E1 E]. apply orb_false_iff in E. destruct E as [E2 E3]. apply Nat.ltb_ge in E3.
    assert (Hrw : exists v, as_wire m r = Some v).
    { unfold is_wire in E2. destruct (as_wire m r) as [v|] eqn:Er; [eauto|]. exfalso. cbn [negb] in E2. rewrite andb_true_r in E2.
      unfold is_chunk in E2. apply Nat.eqb_neq in E2. assert (Z : chunks r = 0) by lia. apply chunks_zero in Z. subst r.
      destruct l; [congruence|discriminate HL]. }
    destruct Hrw as [v Er]. pose proof (as_wire_some _ _ _ Er) as (y & Hy & Hyw & Ey). subst v.
    assert (Hget : exists e, get_bit m st r = Some e).
    { unfold get_bit. rewrite Er. destruct Ha as (A1 & A2 & _). assert (N : named st (wname y) <> None).
      { destruct (port_input y) eqn:P; [auto|]. destruct (Nat.eq_dec (width y) 1) as [W|W].
        - apply A2; auto. apply (Hre y 0); auto. rewrite Ey. unfold whole. rewrite W. left. reflexivity.
        - exfalso. destruct (S5 l r y Hc Hy W Ey) as [(x & Hx & Ex & P')|(x & i & Hx & Hi & Hne' & Ex)]; [congruence|].
          assert (L0 : length l <> 0) by (destruct l; [congruence|discriminate]).
          assert (C1 : is_chunk l = true). { unfold is_chunk. rewrite Ex, chunks_run by exact L0. reflexivity. }
          rewrite C1 in E1. cbn [andb] in E1. unfold is_wire in E1. destruct (as_wire m l) as [w|] eqn:El; [|discriminate E1].
          apply as_wire_some in El. destruct El as (z & Hz & _ & Ez).
          assert (x = z).
          { apply (same_wire m ins outs Hports); auto. rewrite Ex in Ez. unfold whole in Ez. destruct (length l) as [|n]; [congruence|].
            destruct (width z); [discriminate Ez|]. cbn in Ez. injection Ez as Ez _. exact Ez. }
          subst z. apply Hne'. rewrite Ez. apply whole_length. }
      destruct (named st (wname y)) as [e|]; [eauto|congruence]. }
    destruct Hget as [e ->].
    assert (Hlw : exists x, In x (wires m) /\ l = whole x).
    { destruct (Nat.eq_dec (width y) 1) as [W|W].
      - assert (L1 : length l = 1) by (rewrite HL, Ey, whole_length; exact W). destruct l as [|b [|? ?]]; try discriminate L1.
        unfold is_chunk, is_wire in E1. cbn [chunks Nat.eqb andb] in E1. destruct (as_wire m [b]) as [w|] eqn:El; [|discriminate E1].
        apply as_wire_some in El. destruct El as (z & Hz & _ & Ez). eauto.
      - destruct (S5 l r y Hc Hy W Ey) as [(x & Hx & Ex & P')|(x & i & Hx & Hi & Hne' & Ex)]; [eauto|].
        assert (L0 : length l <> 0) by (destruct l; [congruence|discriminate]).
        assert (C1 : is_chunk l = true). { unfold is_chunk. rewrite Ex, chunks_run by exact L0. reflexivity. }
        rewrite C1 in E1. cbn [andb] in E1. unfold is_wire in E1. destruct (as_wire m l) as [w|] eqn:El; [|discriminate E1].
        apply as_wire_some in El. destruct El as (z & Hz & _ & Ez). eauto. }
    destruct Hlw as (x & Hx & Ex). destruct (S1 x Hx) as [W0 _]. unfold add_result_bit.
    assert (El : as_wire m l = Some (wname x)) by (rewrite Ex; apply (as_wire_whole _ _ (proj1 Hports) Hx W0)).
    rewrite El. eexists; split; [reflexivity|]. destruct Ha as (A1 & A2 & A3 & A4). split; [|split; [|split]].
    + intros z Hz P. apply named_mono_add; auto.
    + intros z Hz Hz1 Hb. apply in_app_or in Hb. destruct Hb as [Hb|Hb]; [|apply named_mono_add; auto].
      apply in_rev in Hb. rewrite Ex in Hb. unfold whole in Hb. apply in_map_iff in Hb. destruct Hb as (j & Ej & _). injection Ej as Ej _.
      rewrite <- Ej. unfold add_wire_value. destruct (named st (wname x)) eqn:N; [rewrite N; discriminate|]. cbn [named]. unfold set.
      rewrite String.eqb_refl. discriminate.
    + intros z Hz R. rewrite add_ret. auto.
    + intros z Hz R. rewrite add_ret. auto.
  Qed.

  Definition suits (k : importer) : Prop := match k with Boolean => all_gates m | LUT => all_luts m end.

  Lemma create_some k name c es : suits k -> In (name, c) (cells m) -> length es = length (get_inputs k c) -> exists op, create_op k c es = Some op.
  Proof.
    intros Hk Hc HL. pose proof Hok as (_ & _ & Hcells & _). destruct (Hcells name c Hc) as [(Hn & Hl & Hkind) _]. destruct k; cbn [suits] in Hk.
    - destruct (Hk name c Hc) as (kd & E & Hkd). rewrite E in Hkind. cbn [create_op]. unfold gate_op.
      assert (Hes : es <> []).
      { cbn [get_inputs] in HL. unfold gate_inputs in HL. destruct kd as [|g|n]; [| |destruct (Hkd n eq_refl)].
        - destruct (two _ Hn Hl Hkind) as (a & y & [Ec|Ec]); rewrite Ec in HL; cbn in HL; destruct es; discriminate.
        - destruct (three _ Hn Hl Hkind) as (a & b & y & Ec). destruct Ec as [Ec|[Ec|[Ec|[Ec|[Ec|Ec]]]]]; rewrite Ec in HL; cbn in HL; destruct es; discriminate. }
      destruct es as [|e es]; [congruence|]. apply lookup_in in E. cbn [In] in E.
      destruct E as [E|[E|[E|[E|[E|[E|[E|[E|[E|[E|[]]]]]]]]]]]; injection E as Et Ek; rewrite <- Et;
        try (exfalso; apply (Hkd _ (eq_sym Ek))); cbn; eauto.
    - destruct (Hk name c Hc) as (n & E). rewrite E in Hkind. destruct Hkind as (Hi & Hf & Hrow).
      cbn [create_op]. unfold lut_op.
      assert (Hdig : digit_of (ctype c) = Some n /\ prefix "\lut" (ctype c) = true /\ n <= 4).
      { apply lookup_in in E. cbn [In] in E. destruct E as [E|[E|[E|[E|[E|[E|[E|[E|[E|[E|[]]]]]]]]]]]; injection E as Et Ek; try discriminate Ek;
          rewrite <- Et, <- Ek; repeat split; lia. }
      destruct Hdig as (-> & -> & Hn4).
      assert (Hrows : exists rows, all (map (row c) (seq 0 (2 ^ n))) = Some rows).
      { assert (A : forall l, (forall i, In i l -> i < 2 ^ n) -> exists rows, all (map (row c) l) = Some rows).
        { induction l as [|i l IH]; intro Hb; [eexists; reflexivity|]. destruct IH as [rows IH]; [intros; apply Hb; right; auto|].
          destruct (Hrow i (Hb i (or_introl eq_refl))) as [b Hrb]. cbn [map all]. unfold row at 1. rewrite Hrb, IH. eexists; reflexivity. }
        apply A. intros i Hi'. apply in_seq in Hi'. lia. }
      destruct Hrows as [rows Er]. rewrite Er. apply all_spec in Er.
      assert (Lr : length rows = 2 ^ n). { rewrite <- (map_length Some), <- Er, map_length, seq_length. reflexivity. }
      assert (P16 : 2 ^ n <= 16). { change 16 with (2 ^ 4). apply Nat.pow_le_mono_r; lia. }
      destruct (assemble_some (2 ^ n) 0 rows) as [table ->]; [lia|lia|].
      assert (Le : length es = n).
      { rewrite HL. cbn [get_inputs]. unfold lut_ports. rewrite rev_length, map_length.
        assert (F : length (map fst (filter (fun conn => negb (contains "P"%char (fst conn) || contains "Y"%char (fst conn))) (conns c))) = n).
        { rewrite (filter_ports n); [rewrite Hf, firstn_length; cbn [length input_ports]; lia|]. intros p Hp. apply Hi. exact Hp. }
        rewrite map_length in F. exact F. }
      rewrite Le, Nat.eqb_refl. eauto.
  Qed.

  Lemma inputs_some db st : avail db st -> forall sigs, (forall s, In s sigs -> length s = 1 /\ in_range m s /\ readable db s) ->
    exists es, all (map (get_bit m st) sigs) = Some es /\ length es = length sigs.
  Proof.
    intro Ha. induction sigs as [|s sigs IH]; intro H; [exists []; auto|]. destruct IH as (es & E & L); [intros; apply H; right; auto|].
    destruct (H s (or_introl eq_refl)) as (L1 & R & Re). destruct s as [|b [|? ?]]; try discriminate L1.
    destruct (get_bit_some db st b Ha R Re) as [e Ee]. cbn [map all]. rewrite Ee, E. exists (e :: es). cbn. auto.
  Qed.

  Lemma cell_some k db st name c : suits k -> In (name, c) (cells m) -> avail db st ->
    (forall p s, In (p, s) (conns c) -> p <> "\Y" -> readable db s) ->
    exists y st', In ("\Y", [y]) (conns c) /\ import_cell k m st name = Some st' /\ avail (y :: db) st'.
  Proof.
    intros Hk Hc Ha Hre. pose proof Hok as (_ & Hnc & Hcells & _). destruct (Hcells name c Hc) as [Hcok Hrange]. unfold import_cell.
    rewrite (in_lookup _ _ _ Hnc Hc).
    destruct (inputs_some db st Ha (get_inputs k c)) as (es & -> & L).
    { intros s Hs. destruct (input_of_inputs k c s Hs) as (p & Hp & Hne). split; [apply (proj1 (proj2 Hcok) p s Hp)|]. split; eauto. }
    destruct (create_some k name c es Hk Hc L) as [op ->].
    assert (Hy : exists y, lookup "\Y" (conns c) = Some [y]).
    { assert (I : In "\Y" (map fst (conns c))).
      { destruct Hcok as (_ & _ & Hkd). destruct (kind_of (ctype c)) as [[|g|n]|]; [| | |destruct Hkd].
        - apply Hkd. cbn; auto.
        - apply Hkd. cbn; auto.
        - apply Hkd. apply in_or_app. right. left. reflexivity. }
      apply in_map_iff in I. destruct I as ([p s] & Ep & I). cbn in Ep. subst p. pose proof (proj1 (proj2 Hcok) _ _ I) as L1.
      destruct s as [|y [|? ?]]; try discriminate L1. exists y. apply in_lookup; [apply Hcok|exact I]. }
    destruct Hy as [y Hy]. unfold get_output. rewrite Hy. pose proof (lookup_in _ _ _ Hy) as Hy'.
    destruct (add_result_some db st y op Ha (Hrange _ _ Hy')) as (st' & E & Ha').
    { destruct y as [b|w i]; [|reflexivity]. exfalso. pose proof Hsimple as (_ & S2 & _). apply (S2 name c "\Y" [Const b] Hc Hy' eq_refl b). left. reflexivity. }
    exists y, st'. auto.
  Qed.

  Definition avail_steps (done : list step) (st : state) : Prop := exists db, avail db st /\ forall b, In b db <-> exists s, In s done /\ drives s b.

  Lemma run_some {A} (f : state -> A -> option state) (tr : A -> step) : forall l done st rest,
    topological m (done ++ map tr l ++ rest) -> avail_steps done st ->
    (forall a, In a l -> forall done st, avail_steps done st ->
       (forall x i, In x (wires m) -> port_input x = false -> reads (tr a) (Bit (wname x) i) -> exists s', In s' done /\ drives s' (Bit (wname x) i)) ->
       exists st', f st a = Some st' /\ avail_steps (done ++ [tr a]) st') ->
    exists st', run_all f st l = Some st' /\ avail_steps (done ++ map tr l) st'.
  Proof.
    induction l as [|a l IH]; intros done st rest Ht Ha Hf; cbn [run_all map].
    - exists st. rewrite app_nil_r. auto.
    - destruct (Hf a (or_introl eq_refl) done st Ha) as (st1 & -> & Ha1).
      { intros x i Hx P Hr. apply (Ht done (tr a) (map tr l ++ rest) eq_refl x i Hx P Hr). }
      destruct (IH (done ++ [tr a]) st1 rest) as (st' & -> & Ha').
      + rewrite <- !app_assoc. exact Ht.
      + exact Ha1.
      + intros b Hb. apply Hf. right. exact Hb.
      + exists st'. split; [reflexivity|]. rewrite <- app_assoc in Ha'. exact Ha'.
  Qed.

  Lemma named_fold : forall l st x, (In x (map snd l) \/ named st (wname x) <> None) ->
    named (fold_left (fun st (ix : nat * wire) => add_wire_value st (wname (snd ix)) (Arg (fst ix))) l st) (wname x) <> None.
  Proof.
    induction l as [|[i y] l IH]; intros st x H; [destruct H as [[]|H]; exact H|]. cbn [fold_left map snd fst] in *. apply IH.
    destruct H as [[->|H]|H]; [right|left; exact H|right; apply named_mono_add; exact H].
    unfold add_wire_value. destruct (named st (wname x)) eqn:N; [rewrite N; discriminate|]. cbn [named]. unfold set. rewrite String.eqb_refl. discriminate.
  Qed.
  Lemma snd_combine {A B} : forall (l : list A) (l' : list B), length l = length l' -> map snd (combine l l') = l'.
  Proof. induction l as [|a l IH]; intros [|b l'] H; try discriminate H; [reflexivity|]. cbn. f_equal. apply IH. cbn in H. lia. Qed.
  Lemma initial_avail : avail_steps [] (initial m ins).
  Proof.
    exists []. split; [|intro b; split; [intros []|intros (s & [] & _)]]. split; [|split; [|split]].
    - intros x Hx P. unfold initial. apply named_fold. left. rewrite snd_combine by apply seq_length. apply Hports. auto.
    - intros x _ _ [].
    - intros x Hx R. unfold initial. rewrite ret_initial. cbn [ret]. rewrite (find_wire_in _ _ (proj1 Hports) Hx), R.
      eexists; split; [reflexivity|apply repeat_length].
    - intros x Hx R. unfold initial. rewrite ret_initial. cbn [ret]. rewrite (find_wire_in _ _ (proj1 Hports) Hx), R. reflexivity.
  Qed.

  Lemma import_some k cs : Permutation cs (cells m) -> suits k ->
    topological m (map (fun nc : string * cell => Cell (snd nc)) cs ++ map (fun lr : signal * signal => Connect (fst lr) (snd lr)) (connections m)) ->
    exists f, import_module k m (map fst cs) = Some f.
  Proof.
    intros Hperm Hk Htop. pose proof Hok as (_ & Hnc & Hcells & Hconns). unfold import_module.
    rewrite (num_inputs m ins outs Hports), (num_rets m ins outs Hports), (args_found m ins outs Hports). rewrite run_all_map.
    destruct (run_some (fun st (nc : string * cell) => import_cell k m st (fst nc)) (fun nc => Cell (snd nc)) cs [] (initial m ins)
                (map (fun lr : signal * signal => Connect (fst lr) (snd lr)) (connections m)) Htop initial_avail) as (st1 & E1 & A1).
    { intros [n c] Hin done st (db & Ha & Hdb) Hr. cbn [fst snd] in *. apply (Permutation_in _ Hperm) in Hin.
      destruct (cell_some k db st n c Hk Hin Ha) as (y & st' & Hy & E & Ha').
      { intros p s Hp Hne x i Hx P Hb. apply Hdb. apply Hr; auto. exists p, s. auto. }
      exists st'. split; [exact E|]. exists (y :: db). split; [exact Ha'|]. intro b. cbn [In]. rewrite Hdb. split.
      - intros [<-|(s & Hs & Hd)].
        + exists (Cell c). split; [apply in_or_app; right; left; reflexivity|]. exists [y]. split; [exact Hy|left; reflexivity].
        + exists s. split; [apply in_or_app; left; exact Hs|exact Hd].
      - intros (s & Hs & Hd). apply in_app_or in Hs. destruct Hs as [Hs|[<-|[]]]; [right; eauto|]. left. destruct Hd as (sg & Hsg & Hb).
        destruct (Hcells n c Hin) as [(Hnd & _) _]. apply (in_lookup _ _ _ Hnd) in Hsg. apply (in_lookup _ _ _ Hnd) in Hy. rewrite Hy in Hsg.
        injection Hsg as <-. destruct Hb as [Hb|[]]. exact Hb. }
    rewrite E1. cbn [app] in A1.
    destruct (run_some (import_connection m) (fun lr => Connect (fst lr) (snd lr)) (connections m) _ st1 [] ltac:(rewrite app_nil_r; exact Htop) A1) as (st2 & E2 & A2).
    { intros [l r] Hin done st (db & Ha & Hdb) Hr. cbn [fst snd] in *.
      destruct (connection_some db st l r Hin Ha) as (st' & E & Ha').
      { intros x i Hx P Hb. apply Hdb. apply Hr; auto. }
      exists st'. split; [exact E|]. exists (rev l ++ db). split; [exact Ha'|]. intro b. rewrite in_app_iff, <- in_rev, Hdb. split.
      - intros [Hb|(s & Hs & Hd)].
        + exists (Connect l r). split; [apply in_or_app; right; left; reflexivity|exact Hb].
        + exists s. split; [apply in_or_app; left; exact Hs|exact Hd].
      - intros (s & Hs & Hd). apply in_app_or in Hs. destruct Hs as [Hs|[<-|[]]]; [right; eauto|left; exact Hd]. }
    rewrite E2, (rets_found m ins outs Hports). destruct A2 as (db & (B1 & B2 & B3 & B4) & Hdb).
    assert (R : forall os, incl os outs -> exists f, all (map (returned st2) os) = Some f).
    { induction os as [|x os IH]; intro Hi; [eexists; reflexivity|]. destruct IH as [f IH]; [intros z Hz; apply Hi; right; exact Hz|].
      pose proof (Hi x (or_introl eq_refl)) as Hxo. pose proof Hxo as Hx. apply (outs_ret m ins outs Hports) in Hx. destruct Hx as [Hx Hret].
      assert (Hr : exists e, returned st2 x = Some e).
      { unfold returned. destruct (named st2 (wname x)) as [e|] eqn:N; [eauto|]. destruct (B3 x Hx Hret) as (l & -> & L).
        destruct (Nat.ltb_spec 1 (length l)); [eauto|]. exfalso. pose proof Hsimple as (S1 & _ & _ & S4 & _). destruct (S1 x Hx) as [W0 _].
        assert (W1 : width x = 1) by lia. apply (B2 x Hx W1); [|exact N]. apply Hdb. destruct (S4 x Hxo W1) as [(n & c & Hc & Hd)|(l' & r & Hc & Hd)].
        - exists (Cell c). split; [|exact Hd]. apply in_or_app. left. apply (in_map (fun nc : string * cell => Cell (snd nc)) cs (n, c)).
          apply (Permutation_in _ (Permutation_sym Hperm)). exact Hc.
        - exists (Connect l' r). split; [|exact Hd]. apply in_or_app. right.
          apply (in_map (fun lr : signal * signal => Connect (fst lr) (snd lr)) _ (l', r)). exact Hc. }
      destruct Hr as [e He]. cbn [map all]. rewrite He, IH. eexists; reflexivity. }
    apply R. intros x Hx. exact Hx.
  Qed.
End Success.
