(** Answers about relations given as tables of their points, for the examples. *)
From Coq Require Import String ZArith List Bool Lia Sorting.
From Verif Require Import Rel_Model Rel_Proofs Points_Model Points_Spec Layout_Spec Assign_Model Assign_Spec Codegen_Spec.
Import ListNotations.
Open Scope Z_scope.

Definition all_z (f : Z -> Z -> Z) (l : list Z) : Z := match l with [] => 0 | x :: l => fold_left f l x end.
Definition table := list (list Z * list Z).
Definition tabulated (tbl : rel -> table) (trees : rel -> node) : externals :=
  Externals (fun r i => Some (all_z Z.min (map (fun p => nth i (fst p ++ snd p) 0) (tbl r)))) (fun r i => Some (all_z Z.max (map (fun p => nth i (fst p ++ snd p) 0) (tbl r))))
    (fun r d => map snd (filter (fun p => if list_eq_dec Z.eq_dec (fst p) d then true else false) (tbl r))) (fun r => map (fun p => fst p ++ snd p) (tbl r))
    (fun _ _ => false) (fun _ => false) (fun _ _ => false) (fun r => Z.of_nat (length (tbl r))) (fun r => snd (hd ([], []) (tbl r))) (fun r _ => Some (trees r)).

Lemma min_fold l : forall a, fold_left Z.min l a <= a /\ forall x, In x l -> fold_left Z.min l a <= x.
Proof. induction l as [|y l IH]; intros a; cbn; [split; [lia|easy]|]. destruct (IH (Z.min a y)) as (A & B). split; [lia|]. intros x [<-|I]; [lia|auto]. Qed.
Lemma max_fold l : forall a, a <= fold_left Z.max l a /\ forall x, In x l -> x <= fold_left Z.max l a.
Proof. induction l as [|y l IH]; intros a; cbn; [split; [lia|easy]|]. destruct (IH (Z.max a y)) as (A & B). split; [lia|]. intros x [<-|I]; [lia|auto]. Qed.
Lemma all_min l x : In x l -> all_z Z.min l <= x.
Proof. destruct l as [|y l]; [easy|]. cbn. destruct (min_fold l y). intros [<-|I]; auto. Qed.
Lemma all_max l x : In x l -> x <= all_z Z.max l.
Proof. destruct l as [|y l]; [easy|]. cbn. destruct (max_fold l y). intros [<-|I]; auto. Qed.
Lemma app_split (a b c d : list Z) : length a = length b -> a ++ c = b ++ d -> a = b /\ c = d.
Proof. revert b. induction a as [|x a IH]; intros [|y b] L E; try discriminate L; [auto|]. injection E as -> E. injection L as L. destruct (IH b L E) as (-> & ->). auto. Qed.

Fixpoint before_b (p q : list Z) : bool :=
  match p, q with
  | a :: p, b :: q => (a <? b) || ((a =? b) && before_b p q)
  | [], _ :: _ => true
  | _, _ => false
  end.
Lemma before_b_ok p : forall q, before_b p q = true -> before p q.
Proof.
  induction p as [|a p IH]; intros [|b q]; cbn; try discriminate; [auto|]. intros H. apply orb_true_iff in H as [H|H]; [left; now apply Z.ltb_lt|].
  apply andb_true_iff in H as (H & K). apply Z.eqb_eq in H. right. auto.
Qed.
Fixpoint sorted_b (l : list (list Z)) : bool := match l with [] => true | p :: l => forallb (before_b p) l && sorted_b l end.
Lemma sorted_b_ok l : sorted_b l = true -> StronglySorted before l.
Proof.
  induction l as [|p l IH]; cbn; intros H; [constructor|]. apply andb_true_iff in H as (H & K). constructor; [auto|]. apply Forall_forall. intros q Q. rewrite forallb_forall in H. apply before_b_ok. auto.
Qed.

(** keys of points of a relation with one domain variable *)
Lemma before_keys (s : list nat) p q : Forall (fun i => (i < 1)%nat) s -> In 0%nat s -> (1 <= length p)%nat -> (1 <= length q)%nat ->
  before p q -> before (map (fun i => nth i p 0) s ++ skipn 1 p) (map (fun i => nth i q 0) s ++ skipn 1 q).
Proof.
  destruct p as [|a p], q as [|b q]; cbn [length]; try lia. intros F I _ _ B. cbn [skipn].
  assert (E : forall x l, map (fun i => nth i (x :: l) 0) s = repeat x (length s)).
  { intros x l. clear I. induction F as [|i s Hi F IH]; cbn [map length repeat]; [reflexivity|]. rewrite IH. f_equal. replace i with 0%nat by lia. reflexivity. }
  rewrite !E. destruct s as [|i s]; [easy|]. cbn [length]. generalize (S (length s)) (Nat.lt_0_succ (length s)). intros n Hn. cbn in B. destruct B as [B|(-> & B)].
  - destruct n; [lia|]. cbn. now left.
  - clear Hn. induction n as [|n IH]; [exact B|]. cbn. now right.
Qed.
Lemma sorted_keys s l : Forall (fun i => (i < 1)%nat) s -> In 0%nat s -> Forall (fun p => (1 <= length p)%nat) l -> StronglySorted before l ->
  StronglySorted before (map (fun p => map (fun i => nth i p 0) s ++ skipn 1 p) l).
Proof.
  intros F I L H. induction H as [|p l H IH A]; cbn [map]; [constructor|]. inversion L as [|? ? L1 L2]; subst. constructor; [now apply IH|].
  rewrite Forall_map. rewrite Forall_forall in A, L2 |- *. intros q Hq. apply before_keys; auto.
Qed.

Lemma tabulated_ok tbl trees (R : list Z -> list Z -> Prop) (n : nat) :
  (forall r, (forall d g, relates r d g <-> R d g) -> nr r = n ->
     NoDup (tbl r) /\ tbl r <> [] /\ (forall d g, In (d, g) (tbl r) <-> R d g)) ->
  (exists d g, R d g) -> (forall d g, R d g -> length d = 1%nat /\ length g = n) ->
  (forall r, (forall d g, relates r d g <-> R d g) -> nr r = n -> isl_tree [] (trees r) /\ is_loop (trees r) /\
     exists tr, runs [] (trees r) tr /\ (forall p, In p tr <-> exists d g, p = d ++ g /\ R d g) /\ StronglySorted before tr) ->
  consulted (tabulated tbl trees) R.
Proof.
  intros Ht (d0 & g0 & H0) Hd Hn r W Hr. destruct (Hd d0 g0 H0) as (L1 & L2).
  assert (N1 : nd r = 1%nat) by (destruct (proj2 (Hr d0 g0) H0) as (L & _); lia). assert (N2 : nr r = n) by (destruct (proj2 (Hr d0 g0) H0) as (_ & L & _); lia).
  destruct (Ht r Hr N2) as (Nd & Ne & Pt). split.
  - split; [|split; [|split; [|split; [|split; [|split]]]]].
    + intros d g i b H. apply Hr, Pt in H. cbn [lower upper tabulated]. split; intros [= <-].
      * apply all_min. apply in_map_iff. now exists (d, g).
      * apply all_max. apply in_map_iff. now exists (d, g).
    + intros i _. cbn. split; discriminate.
    + intros d _. cbn [image tabulated]. split.
      * clear - Nd. induction Nd as [|(a, b) l Ni Nd IH]; cbn [filter fst]; [constructor|]. destruct (list_eq_dec Z.eq_dec a d) as [->|]; [|exact IH]. cbn [map snd]. constructor; [|exact IH].
        intros I. apply Ni. apply in_map_iff in I as ((a', b') & E & I). cbn in E. subst b'. apply filter_In in I as (I & E). cbn [fst] in E. destruct (list_eq_dec Z.eq_dec a' d) as [->|]; [exact I|discriminate].
      * intros g. rewrite in_map_iff. rewrite Hr, <- Pt. split.
        -- intros ((a, b) & E & I). cbn in E. subst b. apply filter_In in I as (I & E). cbn [fst] in E. destruct (list_eq_dec Z.eq_dec a d) as [->|]; [exact I|discriminate].
        -- intros I. exists (d, g). split; [reflexivity|]. apply filter_In. split; [exact I|]. cbn [fst]. now destruct (list_eq_dec Z.eq_dec d d).
    + cbn [wrapped tabulated]. split.
      * assert (Ld : forall p, In p (tbl r) -> length (fst p) = 1%nat) by (intros (a, b) I; apply Pt in I; now apply (Hd a b)). clear - Nd Ld.
        induction Nd as [|(a, b) l Ni Nd IH]; cbn [map]; [constructor|]. constructor; [|apply IH; intros p I; apply Ld; now right]. intros I. apply Ni. apply in_map_iff in I as ((a', b') & E & I). cbn [fst snd] in E.
        apply app_split in E as (-> & ->); [exact I|]. pose proof (Ld (a', b') ltac:(now right)) as L1. pose proof (Ld (a, b) ltac:(now left)) as L2. cbn in L1, L2. lia.
      * intros p. rewrite in_map_iff. split; [intros ((a, b) & <- & I); exists a, b; split; [reflexivity|now apply Hr, Pt]|intros (d & g & -> & H); exists (d, g); split; [reflexivity|now apply Pt, Hr]].
    + intros r'. discriminate.
    + intros box. discriminate.
    + cbn [sample tabulated]. destruct (tbl r) as [|(d, g) l] eqn:E; [easy|]. exists d. cbn. apply Hr, Pt. now left.
  - intros s F I. destruct (Hn r Hr N2) as (It & Lt & tr & Ru & Ptr & So). exists (trees r). split; [reflexivity|]. split; [|exact Lt].
    split; [exact It|]. exists tr. split; [exact Ru|]. split; [intros p; rewrite Ptr; split; intros (d & g & -> & H); exists d, g; (split; [reflexivity|now apply Hr])|].
    rewrite N1 in *. apply sorted_keys; auto; [apply I; now left|]. apply Forall_forall. intros p Hp. apply Ptr in Hp as (d & g & -> & H). destruct (Hd d g H). rewrite app_length. lia.
Qed.
Ltac run_tree := first
  [ apply runs_user; reflexivity
  | eapply runs_for; [reflexivity|run_loop] ]
with run_loop := first [ eapply loops_done; reflexivity | eapply loops_step; [reflexivity|run_tree|reflexivity|run_loop] ].
