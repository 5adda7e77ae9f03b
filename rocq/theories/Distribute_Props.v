(** C80, C81: the pass secret-distribute-generic. *)
From Coq Require Import List Bool Arith Lia.
From Verif Require Import Generic_Spec Generic_Model Generic_Proofs Generic2_Proofs Generic3_Proofs Generic8_Proofs Generic_Props.
From Verif Require Import Distribute_Spec Distribute_Model Distribute_Proofs Distribute2_Proofs Distribute3_Proofs Distribute4_Proofs.
Import ListNotations.
Set Default Proof Using "Type".

Lemma index_where_first {A} (p : A -> bool) l i o :
  nth_error l i = Some o -> p o = true -> (forall j o', j < i -> nth_error l j = Some o' -> p o' = false) -> index_where p l = Some i.
Proof.
  revert i; induction l as [|x l IH]; intros [|i] H Hp Hb; cbn [nth_error index_where] in *; try discriminate H.
  - injection H as ->. rewrite Hp; auto.
  - rewrite (Hb 0 x) by (auto; lia). rewrite (IH i); auto. intros j o' Hj Ho'. apply (Hb (S j) o'); auto. lia.
Qed.
Lemma index_where_nth {A} (p : A -> bool) l i : index_where p l = Some i -> exists o, nth_error l i = Some o /\ p o = true.
Proof.
  revert i; induction l as [|x l IH]; intros i; cbn [index_where]; [discriminate|]. destruct (p x) eqn:E.
  - intro H. injection H as <-. exists x; auto.
  - destruct (index_where p l) as [j|]; [|discriminate]. cbn. intro H. injection H as <-. apply IH; auto.
Qed.
Lemma move_all_some count : forall next tins targs tbody tys touts sins sargs body sys souts, count <= length body ->
  exists r, move_all next count (Generic tins targs tbody tys touts) (Generic sins sargs body sys souts) = Some r.
Proof.
  induction count as [|count IH]; intros next tins targs tbody tys touts sins sargs body sys souts H; [eexists; reflexivity|].
  destruct body as [|o rest]; [cbn in H; lia|]. cbn [move_all move_earlier]. apply IH. rewrite map_length. cbn in H. lia.
Qed.

Section C80.
Variable V : Type.
Variable sem : nat -> list V -> option (list V).
Variable trips : V -> nat.
Variable index : nat -> V.
Variable truth : V -> bool.
Notation block := (block V sem trips index truth).
Notation ssa := (ssa V).

(** A generic with several operations becomes two, that compute the same. *)
Theorem C80_split listed lift next next' pre ins args body ys outs post zs new m e ws :
  let g := Generic ins args body ys outs in
  ssa next (pre ++ g :: post) zs e -> 2 <= length body -> clear_results body -> in_order body ->
  split_generic listed lift next g = Some (new, m, next') ->
  block (pre ++ g :: post) zs e = Some ws ->
  block (pre ++ new ++ map (subst m) post) (map (look m) zs) e = Some ws /\ ssa next' (pre ++ new ++ map (subst m) post) (map (look m) zs) e.
Proof.
  intros g Hssa Hl Hc Hio X E. unfold g in *. clear g. cbn [split_generic] in X.
  destruct (match listed with None => match body with [] => None | _ => Some 0 end | Some p => index_where p body end) as [i|]; [|discriminate X].
  destruct body as [|o [|o2 rest]]; cbn [length] in Hl; try lia. set (g := Generic ins args _ ys outs) in *. destruct (Nat.eqb_spec i 0) as [Ei|Hi]; [subst i|].
  - destruct (extract_before next 0 g) as [[[t s] nx]|] eqn:X1; [|discriminate X]. injection X as <- <- <-. rewrite look_nil, substs_nil.
    cbn [in_order] in Hio. eapply extract_first_block; eauto; [apply Hc; left; auto | tauto].
  - destruct (split_before next i g) as [[[t s] nx]|] eqn:X1; [|discriminate X]. injection X as <- <- <-. rewrite look_nil, substs_nil.
    destruct (split_before_block V sem trips index truth _ _ i _ _ _ _ _ _ _ _ _ _ _ _ Hssa Hc Hio ltac:(lia) X1 E) as (H1 & H2 & _). auto.
Qed.
(** The operations in front of the first listed one go to the first generic, and the listed one starts the second;
    a listed first operation gets a generic of its own. *)
Theorem C80_split_where p lift next next' pre ins args body ys outs post zs i o new m e ws :
  let g := Generic ins args body ys outs in
  ssa next (pre ++ g :: post) zs e -> 2 <= length body -> clear_results body -> in_order body ->
  block (pre ++ g :: post) zs e = Some ws ->
  nth_error body i = Some o -> p o = true -> (forall j o', j < i -> nth_error body j = Some o' -> p o' = false) ->
  split_generic (Some p) lift next g = Some (new, m, next') ->
  exists tins targs tbody tys touts sins sargs sbody sys,
    new = [Generic tins targs tbody tys touts; Generic sins sargs sbody sys outs] /\ m = [] /\
    map results tbody = map results (firstn (Nat.max 1 i) body) /\ map results sbody = map results (skipn (Nat.max 1 i) body).
Proof.
  intros g Hssa Hl Hc Hio E Ho Hp Hb X. unfold g in *. clear g. cbn [split_generic] in X. rewrite (index_where_first _ _ _ _ Ho Hp Hb) in X.
  destruct body as [|o1 [|o2 rest]]; cbn [length] in Hl; try lia. set (g := Generic ins args _ ys outs) in *. destruct (Nat.eqb_spec i 0) as [Ei|Hi]; [subst i|].
  - unfold g in X. cbn [extract_before nth_error firstn skipn app] in X. injection X as <- <- <-. do 9 eexists. split; [reflexivity|]. split; [reflexivity|].
    cbn [Nat.max firstn skipn map]. rewrite ?results_subst. split; auto. f_equal. rewrite map_map. apply map_ext. intro; apply results_subst.
  - destruct (split_before next i g) as [[[t s] nx]|] eqn:X1; [|discriminate X]. injection X as <- <- <-.
    destruct (split_before_block V sem trips index truth _ _ i _ _ _ _ _ _ _ _ _ _ _ _ Hssa Hc Hio ltac:(lia) X1 E) as (_ & _ & tins & targs & tbody & tys & touts & sins & sargs & sbody & sys & -> & -> & H1 & H2).
    replace (Nat.max 1 i) with i by lia. do 9 eexists. split; [reflexivity|]. auto.
Qed.
(** Without a list, the first operation gets a generic of its own. *)
Theorem C80_split_first lift next ins args o body ys outs new m next' :
  body <> [] -> split_generic None lift next (Generic ins args (o :: body) ys outs) = Some (new, m, next') ->
  exists tins targs o' tys touts sins sargs sbody sys,
    new = [Generic tins targs [o'] tys touts; Generic sins sargs sbody sys outs] /\ m = [] /\
    results o' = results o /\ map results sbody = map results body.
Proof.
  intros Hb X. destruct body as [|o2 rest]; [congruence|]. cbn [split_generic Nat.eqb extract_before nth_error firstn skipn app] in X. injection X as <- <- <-.
  do 9 eexists. split; [reflexivity|]. split; [reflexivity|]. split; [apply results_subst|]. cbn [map]. rewrite results_subst, map_map. f_equal. apply map_ext. intro; apply results_subst.
Qed.
(** Splitting never fails. *)
Theorem C80_split_applies listed lift next ins args body ys outs :
  2 <= length body -> (forall p, listed = Some p -> exists o, In o body /\ p o = true) ->
  exists r, split_generic listed lift next (Generic ins args body ys outs) = Some r.
Proof.
  intros Hl Hp. destruct body as [|o1 [|o2 rest]]; cbn [length] in Hl; try lia.
  assert (Hi : exists i, (match listed with None => Some 0 | Some p => index_where p (o1 :: o2 :: rest) end) = Some i /\ i < length (o1 :: o2 :: rest)).
  { destruct listed as [p|]; [|exists 0; cbn; split; auto; lia]. destruct (Hp p eq_refl) as (o & Ho & Hpo).
    assert (Hn : exists i, index_where p (o1 :: o2 :: rest) = Some i).
    { clear -Ho Hpo. induction (o1 :: o2 :: rest) as [|x l IH]; [destruct Ho|]. cbn [index_where]. destruct (p x) eqn:E; eauto. destruct Ho as [->|Ho]; [congruence|].
      destruct (IH Ho) as (i & ->). cbn. eauto. }
    destruct Hn as (i & Hi). exists i. split; auto. destruct (index_where_nth _ _ _ Hi) as (o' & Ho' & _). apply nth_error_Some. congruence. }
  destruct Hi as (i & Hi & Hlt). cbn [split_generic]. rewrite Hi.
  destruct (Nat.eqb_spec i 0) as [->|Hn]; [eexists; reflexivity|]. unfold split_before. cbn [extract_before nth_error firstn skipn app].
  edestruct move_all_some as (r & Hr); [|rewrite Hr; destruct r as [[t s] nx]; eexists; reflexivity].
  rewrite map_length. cbn [length] in *. lia.
Qed.
(** A generic around a separator disappears. *)
Theorem C80_separator separator next next' pre g post zs new m e ws :
  fold_separator separator next g = Some (new, m, next') ->
  block (pre ++ g :: post) zs e = Some ws -> block (pre ++ new ++ map (subst m) post) (map (look m) zs) e = Some ws.
Proof.
  destruct g as [| | |ins args [|o [|]] ys [|]| |]; try discriminate. cbn [fold_separator]. destruct (is_plain separator o); [|discriminate].
  intro H. injection H as <- <- <-. rewrite look_nil, substs_nil. cbn [app]. unfold Generic_Spec.block. rewrite !run_app. destruct (run _ _ _ _ _ pre e) as [e0|]; auto.
  rewrite run_cons. cbn [results]. destruct (eval _ _ _ _ _ _ e0) as [[|w l]|]; cbn [bind]; auto; discriminate.
Qed.

(** ** C81 *)
(** A generic around a conditional moves into its branches. *)
Theorem C81_if listed lift next next' pre ins args c thn tys els eys rs ys outs post zs new m e ws :
  let g := Generic ins args [If c thn tys els eys rs] ys outs in
  ssa next (pre ++ g :: post) zs e ->
  split_generic listed lift next g = Some (new, m, next') ->
  block (pre ++ g :: post) zs e = Some ws ->
  block (pre ++ new ++ map (subst m) post) (map (look m) zs) e = Some ws /\ ssa next' (pre ++ new ++ map (subst m) post) (map (look m) zs) e.
Proof.
  intros g Hssa X E. unfold g in X. cbn [split_generic has_regions] in X. fold g in X.
  destruct (match listed with None => Some 0 | Some p => _ end); [|discriminate X]. eapply distribute_if_block; eauto.
Qed.
(** A generic around a loop moves into its body: provided that the bound is not a block argument of the generic, a
    block argument initializes at most one loop-carried value, a secret operand is not read in the loop in another
    way, and the yielded results of the loop become secret. *)
Theorem C81_for_partial listed lift next next' pre ins args c inits iv iters body ys rs gys outs post zs new m e ws :
  let g := Generic ins args [For c inits iv iters body ys rs] gys outs in
  ssa next (pre ++ g :: post) zs e ->
  ~ In c args -> forallb public inits = true ->
  (forall a i j, In a args -> nth_error inits i = Some a -> nth_error inits j = Some a -> i = j) ->
  (forall x a, In (x, a) (combine ins args) -> secret x = true ->
     ~ In x (flat_map uses body ++ ys) /\ (In a inits -> ~ In a (flat_map uses body ++ ys))) ->
  forallb secret outs = true ->
  (forall r i, In r gys -> nth_error rs i = Some r ->
     (exists x a, nth_error inits i = Some a /\ In (x, a) (combine ins args) /\ secret x = true) \/ nth i lift false = true) ->
  split_generic listed lift next g = Some (new, m, next') ->
  block (pre ++ g :: post) zs e = Some ws ->
  block (pre ++ new ++ map (subst m) post) (map (look m) zs) e = Some ws /\ ssa next' (pre ++ new ++ map (subst m) post) (map (look m) zs) e.
Proof.
  intros g Hssa H1 H2 H3 H4 H5 H6 X E. unfold g in X. cbn [split_generic has_regions] in X. fold g in X.
  destruct (match listed with None => Some 0 | Some p => _ end); [|discriminate X]. eapply distribute_for_block; eauto.
Qed.
End C80.
(** Control flow that depends on a secret stays in the generic. *)
Theorem C81_secret_bound listed lift next ins args c inits iv iters body ys rs gys outs new m next' :
  split_generic listed lift next (Generic ins args [For c inits iv iters body ys rs] gys outs) = Some (new, m, next') ->
  NoDup args -> (forall x, In (x, c) (combine ins args) -> secret x = false) /\ (~ In c args -> secret c = false).
Proof.
  cbn [split_generic has_regions]. destruct (match listed with None => Some 0 | Some p => _ end); [|discriminate]. cbn [distribute_for]. intros H Na. split.
  - intros x Hx. assert (Hc := in_combine_r _ _ _ _ Hx). destruct (mem_spec c args); [|tauto]. cbn [andb] in H.
    unfold operand_of in H. rewrite (look_combine _ _ c x Na) in H by (apply In_combine_swap; auto). destruct (secret x); [discriminate H | auto].
  - intro Hc. destruct (mem_spec c args); [tauto|]. cbn [andb orb] in H. destruct (secret c); [discriminate H | auto].
Qed.
Theorem C81_secret_condition listed lift next ins args c thn tys els eys rs ys outs new m next' :
  split_generic listed lift next (Generic ins args [If c thn tys els eys rs] ys outs) = Some (new, m, next') -> ~ In c args.
Proof.
  cbn [split_generic has_regions]. destruct (match listed with None => Some 0 | Some p => _ end); [|discriminate]. cbn [distribute_if].
  destruct (mem_spec c args); [discriminate | auto].
Qed.

(** * Examples *)
Definition ex_three :=
  Generic [sv 0; sv 1] [pv 10; pv 11] [Plain 3 [pv 10] [pv 12]; Plain 0 [pv 12; pv 11] [pv 13]; Plain 0 [pv 13; pv 12] [pv 14]; Plain 0 [pv 14; pv 11] [pv 15]] [pv 15; pv 13] [sv 16; sv 17].
Example C80_split_nonvacuous :
  ssa nat 30 ([] ++ ex_three :: [Reveal (pv 20) (sv 16)]) [pv 20; sv 17] ex_env /\
  clear_results [Plain 3 [pv 10] [pv 12]; Plain 0 [pv 12; pv 11] [pv 13]; Plain 0 [pv 13; pv 12] [pv 14]; Plain 0 [pv 14; pv 11] [pv 15]] /\
  in_order [Plain 3 [pv 10] [pv 12]; Plain 0 [pv 12; pv 11] [pv 13]; Plain 0 [pv 13; pv 12] [pv 14]; Plain 0 [pv 14; pv 11] [pv 15]] /\
  split_generic (Some (fun o => mem (pv 14) (results o))) [] 30 ex_three =
    Some ([Generic [sv 0; sv 1] [pv 30; pv 37] [Plain 3 [pv 30] [pv 12]; Plain 0 [pv 12; pv 37] [pv 13]] [pv 12; pv 13] [sv 31; sv 35];
           Generic [sv 0; sv 1; sv 31; sv 35] [pv 10; pv 11; pv 32; pv 36] [Plain 0 [pv 36; pv 32] [pv 14]; Plain 0 [pv 14; pv 11] [pv 15]] [pv 15; pv 36] [sv 16; sv 17]], [], 38) /\
  ex_block ([] ++ ex_three :: [Reveal (pv 20) (sv 16)]) [pv 20; sv 17] ex_env = Some [68; 34].
Proof.
  split; [apply check_ssa; reflexivity|]. split; [intros o [<-|[<-|[<-|[<-|[]]]]]; reflexivity|]. split; [|split; reflexivity].
  cbn. unfold pv. repeat split; try tauto; intros v H H'; intuition (subst; discriminate).
Qed.

Example C80_split_where_nonvacuous :
  let body := [Plain 3 [pv 10] [pv 12]; Plain 0 [pv 12; pv 11] [pv 13]; Plain 0 [pv 13; pv 12] [pv 14]; Plain 0 [pv 14; pv 11] [pv 15]] in
  nth_error body 2 = Some (Plain 0 [pv 13; pv 12] [pv 14]) /\ mem (pv 14) (results (Plain 0 [pv 13; pv 12] [pv 14])) = true /\
  forall j o, j < 2 -> nth_error body j = Some o -> mem (pv 14) (results o) = false.
Proof. split; [reflexivity|]. split; [reflexivity|]. intros [|[|j]] o Hj H; try lia; cbn in H; injection H as <-; reflexivity. Qed.
Example C80_split_first_nonvacuous :
  split_generic None [] 30 ex_three =
    Some ([Generic [sv 0] [pv 30] [Plain 3 [pv 30] [pv 12]] [pv 12] [sv 31];
           Generic [sv 0; sv 1; sv 31] [pv 10; pv 11; pv 32] [Plain 0 [pv 32; pv 11] [pv 13]; Plain 0 [pv 13; pv 32] [pv 14]; Plain 0 [pv 14; pv 11] [pv 15]]
             [pv 15; pv 13] [sv 16; sv 17]], [], 33).
Proof. reflexivity. Qed.
Example C80_split_applies_nonvacuous :
  2 <= length (match ex_three with Generic _ _ body _ _ => body | _ => [] end) /\
  (forall p : op -> bool, Some (fun o => mem (pv 15) (results o)) = Some p -> exists o, In o (match ex_three with Generic _ _ body _ _ => body | _ => [] end) /\ p o = true).
Proof.
  split; [cbn; lia|]. intros p H. injection H as <-. exists (Plain 0 [pv 14; pv 11] [pv 15]). split; [cbn; auto | reflexivity].
Qed.
(** the operation 5 separates *)
Definition ex_separator := Generic [sv 0] [pv 10] [Plain 5 [pv 10] []] [] [].
Example C80_separator_nonvacuous :
  fold_separator (fun n => n =? 5) 30 ex_separator = Some ([], [], 30) /\
  block nat (fun n ws => if n =? 5 then Some [] else ex_sem n ws) (fun n => n) (fun n => n) (fun n => negb (n =? 0))
    ([] ++ ex_separator :: [Reveal (pv 20) (sv 0)]) [pv 20] ex_env = Some [3].
Proof. split; reflexivity. Qed.
(** a conditional on a plaintext *)
Definition ex_branch :=
  Generic [sv 0; sv 1] [pv 10; pv 11] [If (pv 2) [Plain 0 [pv 10; pv 11] [pv 12]] [pv 12] [Plain 3 [pv 10] [pv 13]] [pv 13] [pv 14]] [pv 14] [sv 15].
Example C81_if_nonvacuous :
  ssa nat 30 ([] ++ ex_branch :: [Reveal (pv 20) (sv 15)]) [pv 20] ex_env /\
  split_generic None [] 30 ex_branch =
    Some ([If (pv 2) [Generic [sv 0; sv 1] [pv 30; pv 31] [Plain 0 [pv 30; pv 31] [pv 12]] [pv 12] [sv 32]] [sv 32]
                     [Generic [sv 0; sv 1] [pv 33; pv 34] [Plain 3 [pv 33] [pv 13]] [pv 13] [sv 35]] [sv 35] [sv 15]], [], 36) /\
  ex_block ([] ++ ex_branch :: [Reveal (pv 20) (sv 15)]) [pv 20] ex_env = Some [7].
Proof. split; [apply check_ssa; reflexivity | split; reflexivity]. Qed.
(** a loop that carries a secret and a plaintext that becomes secret, and reads another secret *)
Definition ex_loop_body := [Plain 0 [pv 22; pv 11] [pv 24]; Plain 0 [pv 23; pv 24] [pv 25]; Plain 0 [pv 25; pv 21] [pv 26]].
Definition ex_loop :=
  Generic [sv 0; sv 1] [pv 10; pv 11] [For (pv 2) [pv 10; pv 2] (pv 21) [pv 22; pv 23] ex_loop_body [pv 24; pv 26] [pv 27; pv 28]] [pv 28; pv 27] [sv 15; sv 16].
Example C81_for_nonvacuous :
  ssa nat 30 ([] ++ ex_loop :: [Reveal (pv 20) (sv 15)]) [pv 20; sv 16] ex_env /\
  ~ In (pv 2) [pv 10; pv 11] /\ forallb public [pv 10; pv 2] = true /\
  (forall a i j, In a [pv 10; pv 11] -> nth_error [pv 10; pv 2] i = Some a -> nth_error [pv 10; pv 2] j = Some a -> i = j) /\
  (forall x a, In (x, a) (combine [sv 0; sv 1] [pv 10; pv 11]) -> secret x = true ->
     ~ In x (flat_map uses ex_loop_body ++ [pv 24; pv 26]) /\ (In a [pv 10; pv 2] -> ~ In a (flat_map uses ex_loop_body ++ [pv 24; pv 26]))) /\
  (forall r i, In r [pv 28; pv 27] -> nth_error [pv 27; pv 28] i = Some r ->
     (exists x a, nth_error [pv 10; pv 2] i = Some a /\ In (x, a) (combine [sv 0; sv 1] [pv 10; pv 11]) /\ secret x = true) \/ nth i [false; true] false = true) /\
  split_generic None [false; true] 30 ex_loop =
    Some ([Conceal (sv 31) (pv 2);
           For (pv 2) [sv 0; sv 31] (pv 21) [sv 32; sv 33]
             [Generic [sv 32; sv 1; sv 33] [pv 34; pv 35; pv 36] [Plain 0 [pv 34; pv 35] [pv 24]; Plain 0 [pv 36; pv 24] [pv 25]; Plain 0 [pv 25; pv 21] [pv 26]]
                [pv 24; pv 26] [sv 37; sv 38]] [sv 37; sv 38] [sv 39; sv 40]], [(sv 15, sv 40); (sv 16, sv 39)], 41) /\
  ex_block ([] ++ ex_loop :: [Reveal (pv 20) (sv 15)]) [pv 20; sv 16] ex_env = Some [90; 23].
Proof.
  split; [apply check_ssa; reflexivity|]. unfold pv, sv in *.
  split; [cbn; intuition discriminate|]. split; [reflexivity|]. split.
  { intros a i j _ Hi Hj. destruct i as [|[|i]]; [| |destruct i; discriminate Hi]; (destruct j as [|[|j]]; [| |destruct j; discriminate Hj]); cbn in Hi, Hj; congruence. }
  split.
  { intros x a [H|[H|[]]] _; injection H as <- <-; (split; [cbn; intuition discriminate|]); intros [H|[H|[]]]; try discriminate H; cbn; intuition discriminate. }
  split.
  { intros r [|[|i]] Hr Hi; cbn in Hi; [left; exists (true, 0), (false, 10); cbn; auto | right; reflexivity | destruct i; discriminate Hi]. }
  split; reflexivity.
Qed.
Definition split_result (g : op) : option (list nat) :=
  match split_generic None [] 30 g with Some (new, m, _) => ex_block new (map (look m) (results g)) ex_env | None => None end.
(** A block argument that initializes two loop-carried values: the later arguments of the generic are shifted, and
    the loop computes something else. *)
Theorem C81_for_repeated_refuted :
  exists g w w', ssa nat 30 [g] (results g) ex_env /\ ex_block [g] (results g) ex_env = Some w /\ split_result g = Some w' /\ w' <> w.
Proof.
  exists (Generic [sv 0; sv 1] [pv 10; pv 11]
    [For (pv 2) [pv 10; pv 10] (pv 21) [pv 22; pv 23] [Plain 0 [pv 22; pv 11] [pv 24]; Plain 0 [pv 23; pv 24] [pv 25]] [pv 24; pv 25] [pv 27; pv 28]] [pv 28] [sv 15]), [78], [432].
  split; [apply check_ssa; reflexivity|]. repeat split; try reflexivity. discriminate.
Qed.
(** A carried block argument that is also read in the loop, a secret operand that is also read directly, and a bound that is a
    block argument for a plaintext: the result has no meaning. *)
Theorem C81_for_read_refuted :
  exists g w, ssa nat 30 [g] (results g) ex_env /\ ex_block [g] (results g) ex_env = Some w /\ split_generic None [] 30 g <> None /\ split_result g = None.
Proof.
  exists (Generic [sv 0] [pv 10] [For (pv 2) [pv 10] (pv 21) [pv 22] [Plain 0 [pv 22; pv 10] [pv 24]] [pv 24] [pv 27]] [pv 27] [sv 15]), [18].
  split; [apply check_ssa; reflexivity|]. repeat split; try reflexivity. discriminate.
Qed.
Theorem C81_for_direct_refuted :
  exists g w, ssa nat 30 [g] (results g) ex_env /\ ex_block [g] (results g) ex_env = Some w /\ split_generic None [] 30 g <> None /\ split_result g = None.
Proof.
  exists (Generic [sv 0; sv 1] [pv 10; pv 11] [For (pv 2) [pv 10] (pv 21) [pv 22] [Reveal (pv 23) (sv 1); Plain 0 [pv 22; pv 23] [pv 24]] [pv 24] [pv 27]] [pv 27] [sv 15]), [23].
  split; [apply check_ssa; reflexivity|]. repeat split; try reflexivity. discriminate.
Qed.
Theorem C81_for_bound_refuted :
  exists g w, ssa nat 30 [g] (results g) ex_env /\ ex_block [g] (results g) ex_env = Some w /\ split_generic None [] 30 g <> None /\ split_result g = None.
Proof.
  exists (Generic [sv 0; pv 2] [pv 10; pv 11] [For (pv 11) [pv 10] (pv 21) [pv 22] [Plain 0 [pv 22; pv 21] [pv 24]] [pv 24] [pv 27]] [pv 27] [sv 15]), [13].
  split; [apply check_ssa; reflexivity|]. repeat split; try reflexivity. discriminate.
Qed.
(** A loop with a plaintext initial value that is not marked: the secret result becomes a plaintext. *)
Theorem C81_for_unmarked_refuted :
  exists g new m next', ssa nat 30 [g] (results g) ex_env /\ forallb secret (results g) = true /\ ex_block [g] (results g) ex_env <> None /\
    split_generic None [] 30 g = Some (new, m, next') /\ forallb public (map (look m) (results g)) = true.
Proof.
  exists (Generic [sv 0] [pv 10] [For (pv 2) [pv 2] (pv 21) [pv 22] [Plain 0 [pv 22; pv 10] [pv 24]] [pv 24] [pv 27]] [pv 27] [sv 15]).
  do 3 eexists. split; [apply check_ssa; reflexivity|]. split; [reflexivity|]. split; [discriminate|]. split; reflexivity.
Qed.
Example C81_secret_bound_nonvacuous :
  split_generic None [] 30 (Generic [sv 0; pv 2] [pv 10; pv 11] [For (pv 11) [pv 10] (pv 21) [pv 22] [Plain 0 [pv 22; pv 21] [pv 24]] [pv 24] [pv 27]] [pv 27] [sv 15]) <> None /\
  split_generic None [] 30 (Generic [sv 0; sv 1] [pv 10; pv 11] [For (pv 11) [pv 10] (pv 21) [pv 22] [Plain 0 [pv 22; pv 21] [pv 24]] [pv 24] [pv 27]] [pv 27] [sv 15]) = None.
Proof. split; [discriminate | reflexivity]. Qed.
Example C81_secret_condition_nonvacuous :
  split_generic None [] 30 ex_branch <> None /\
  split_generic None [] 30 (Generic [sv 0; sv 1] [pv 10; pv 11] [If (pv 11) [Plain 0 [pv 10; pv 11] [pv 12]] [pv 12] [Plain 3 [pv 10] [pv 13]] [pv 13] [pv 14]] [pv 14] [sv 15]) = None.
Proof. split; [discriminate | reflexivity]. Qed.

Print Assumptions C80_split.
Print Assumptions C80_split_where.
Print Assumptions C80_split_first.
Print Assumptions C80_split_applies.
Print Assumptions C80_separator.
Print Assumptions C81_if.
Print Assumptions C81_for_partial.
Print Assumptions C81_secret_bound.
Print Assumptions C81_secret_condition.
Print Assumptions C81_for_repeated_refuted.
Print Assumptions C81_for_read_refuted.
Print Assumptions C81_for_direct_refuted.
Print Assumptions C81_for_bound_refuted.
Print Assumptions C81_for_unmarked_refuted.
