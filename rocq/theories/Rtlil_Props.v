(** C84: the function that is imported from a netlist computes the outputs of the netlist. *)
From Coq Require Import Ascii String List Bool NArith Arith Lia Permutation.
From Verif Require Import Lut_Spec Lut_Model Rtlil_Spec Rtlil_Model Rtlil_Proofs.
Import ListNotations.
Local Open Scope string_scope.
Local Open Scope list_scope.

(** The order in which cells and connections are imported. *)
Definition steps_of (cs : list (string * cell)) (m : module) : list step :=
  map (fun nc : string * cell => Cell (snd nc)) cs ++ map (fun lr : signal * signal => Connect (fst lr) (snd lr)) (connections m).

(** If the import succeeds and bits of outputs are not read too early, then the function returns, for every assignment that
    agrees with the netlist, the bits of the outputs; bits that nothing drives are 0. *)
Theorem C84_sound : forall k m ins outs cs f rho,
  module_ok m ins outs -> Permutation cs (cells m) -> in_order m outs (steps_of cs m) ->
  import_module k m (map fst cs) = Some f -> consistent m rho ->
  exists vs, run f (map (wire_value rho) ins) = Some vs /\
    Forall2 (fun x v => exists rho', v = wire_value rho' x /\
      forall i, i < width x -> (driven m (Bit (wname x) i) -> rho' (wname x) i = rho (wname x) i) /\
                               (~ driven m (Bit (wname x) i) -> rho' (wname x) i = false)) outs vs.
Proof. intros. eapply import_sound; eauto. Qed.
Print Assumptions C84_sound.

(** The import succeeds for netlists in topological order and then returns exactly the outputs, if all their bits are driven. *)
Theorem C84_import : forall k m ins outs cs,
  module_ok m ins outs -> simple m outs -> match k with Boolean => all_gates m | LUT => all_luts m end ->
  Permutation cs (cells m) -> topological m (steps_of cs m) -> in_order m outs (steps_of cs m) ->
  exists f, import_module k m (map fst cs) = Some f /\
    forall rho, consistent m rho -> (forall x i, In x outs -> i < width x -> driven m (Bit (wname x) i)) ->
      run f (map (wire_value rho) ins) = Some (map (wire_value rho) outs).
Proof.
  intros k m ins outs cs Hok Hs Hk Hp Ht Ho. destruct (import_some m ins outs Hok Hs k cs Hp Hk Ht) as [f Hf]. exists f. split; [exact Hf|].
  intros rho Hc Hd. destruct (import_sound k m ins outs cs f rho Hok Hp Ho Hf Hc) as (vs & -> & HF). f_equal.
  assert (A : forall os vs, incl os outs -> Forall2 (fun x v => exists rho', v = wire_value rho' x /\
      forall i, i < width x -> (driven m (Bit (wname x) i) -> rho' (wname x) i = rho (wname x) i) /\
                               (~ driven m (Bit (wname x) i) -> rho' (wname x) i = false)) os vs -> vs = map (wire_value rho) os).
  { clear HF vs. intros os vs Hi HF. induction HF as [|x v os vs (rho' & -> & Hr) HF IH]; [reflexivity|]. cbn [map]. f_equal.
    - unfold wire_value. destruct (Nat.eqb_spec (width x) 1) as [W|W].
      + f_equal. apply (proj1 (Hr 0 ltac:(lia))). apply Hd; [apply Hi; left; reflexivity|lia].
      + f_equal. apply map_ext_in. intros i Hin. apply in_seq in Hin. apply (proj1 (Hr i ltac:(lia))). apply Hd; [apply Hi; left; reflexivity|lia].
    - apply IH. intros y Hy. apply Hi. right. exact Hy. }
  apply (A outs vs); [intros x Hx; exact Hx|exact HF].
Qed.
Print Assumptions C84_import.

(** *** Examples *)
Lemma split_one {A} (P : list A -> A -> Prop) : forall l, (forall i x, nth_error l i = Some x -> P (firstn i l) x) ->
  forall before s after, l = before ++ s :: after -> P before s.
Proof.
  intros l H before s after ->. specialize (H (length before) s). rewrite nth_error_app2, Nat.sub_diag, firstn_app, Nat.sub_diag in H by lia.
  cbn in H. rewrite firstn_all, app_nil_r in H. auto.
Qed.

Definition x2 : wire := {| wname := "\x"; width := 2; port_id := 1; port_input := true; port_output := false |}.
Definition y2 : wire := {| wname := "\y"; width := 2; port_id := 2; port_input := false; port_output := true |}.
Definition z1 : wire := {| wname := "\z"; width := 1; port_id := 3; port_input := false; port_output := true |}.
Definition t1 : wire := {| wname := "$t"; width := 1; port_id := 0; port_input := false; port_output := false |}.

(** An adder of the two bits of x: y = x[0] + x[1], and z = 1 if the carry is not set. *)
Definition and_cell : cell := {| ctype := "$_AND_"; conns := [("\Y", [Bit "$t" 0]); ("\B", [Bit "\x" 1]); ("\A", [Bit "\x" 0])] |}.
Definition xor_cell : cell := {| ctype := "$_XOR_"; conns := [("\A", [Bit "\x" 0]); ("\B", [Bit "\x" 1]); ("\Y", [Bit "\y" 0])] |}.
Definition not_cell : cell := {| ctype := "$_NOT_"; conns := [("\A", [Bit "$t" 0]); ("\Y", [Bit "\z" 0])] |}.
Definition adder : module :=
  {| wires := [t1; x2; y2; z1]; cells := [("c3", not_cell); ("c1", and_cell); ("c2", xor_cell)];
     connections := [([Bit "\y" 1], [Bit "$t" 0])] |}.
Definition adder_order : list (string * cell) := [("c1", and_cell); ("c2", xor_cell); ("c3", not_cell)].

Ltac range := let w := fresh in let i := fresh in let H := fresh in
  intros w i H; cbn in H; repeat (destruct H as [H|H]; [try discriminate H; injection H as <- <-|]); try destruct H;
  first [exists x2; cbn; repeat split; auto 9; lia|exists y2; cbn; repeat split; auto 9; lia|exists z1; cbn; repeat split; auto 9; lia|exists t1; cbn; repeat split; auto 9; lia].

Lemma adder_ports (cs : list (string * cell)) cn : ports_ok {| wires := [t1; x2; y2; z1]; cells := cs; connections := cn |} [x2] [y2; z1].
Proof.
  split; [|split; [|split]].
  - repeat constructor; cbn; intuition discriminate.
  - intro x. cbn. split; [intros [<-|[]]; repeat split; auto 9|]. intros [[<-|[<-|[<-|[<-|[]]]]] H]; try discriminate H; auto.
  - intro x. cbn. split; [intros [<-|[<-|[]]]; repeat split; auto 9|]. intros [[<-|[<-|[<-|[<-|[]]]]] [H H']]; try discriminate H; try discriminate H'; auto.
  - reflexivity.
Qed.
Lemma adder_ok : module_ok adder [x2] [y2; z1].
Proof.
  split; [apply adder_ports|]. split; [repeat constructor; cbn; intuition discriminate|]. split.
  - intros n c H. cbn in H. destruct H as [H|[H|[H|[]]]]; injection H as <- <-; (split; [split; [repeat constructor; cbn; intuition discriminate|split]|]).
    1,4,7: intros p s H; cbn in H; repeat (destruct H as [H|H]; [injection H as <- <-; reflexivity|]); destruct H.
    1,3,5: intro p; cbn; tauto.
    all: intros p s H; cbn in H; repeat (destruct H as [H|H]; [injection H as <- <-; range|]); destruct H.
  - intros l r H. cbn in H. destruct H as [H|[]]. injection H as <- <-. split; [reflexivity|]. split; range.
Qed.
Lemma adder_topological : topological adder (steps_of adder_order adder) /\ in_order adder [y2; z1] (steps_of adder_order adder).
Proof.
  split.
  - intros before s after E. revert before s after E. apply (split_one (fun before s => forall x i, In x (wires adder) -> port_input x = false ->
      reads s (Bit (wname x) i) -> exists s', In s' before /\ drives s' (Bit (wname x) i))).
    intros n s Hn x i Hx P Hr.
    destruct n as [|[|[|[|n]]]]; cbn in Hn; [| | | |destruct n; discriminate Hn]; injection Hn as <-; cbn in Hx;
      destruct Hx as [<-|[<-|[<-|[<-|[]]]]]; try discriminate P; cbn in Hr;
      try (destruct Hr as (p & sg & [Hr|[Hr|[Hr|[]]]] & Hp & Hb); injection Hr as <- <-; cbn in Hb; destruct Hb as [Hb|[]]; try discriminate Hb; try congruence);
      try (destruct Hr as (p & sg & [Hr|[Hr|[]]] & Hp & Hb); injection Hr as <- <-; cbn in Hb; destruct Hb as [Hb|[]]; try discriminate Hb; try congruence);
      try (destruct Hr as [Hr|[]]; try discriminate Hr).
    + injection Hb as <-. exists (Cell and_cell). split; [cbn; auto|]. exists [Bit "$t" 0]. cbn; auto.
    + injection Hr as <-. exists (Cell and_cell). split; [cbn; auto|]. exists [Bit "$t" 0]. cbn; auto.
  - intros before s after E _. revert before s after E. apply (split_one (fun before s => forall x i, In x [y2; z1] -> width x <> 1 ->
      reads s (Bit (wname x) i) -> exists s', In s' before /\ drives s' (Bit (wname x) i) /\ ~ is_copy adder s')).
    intros n s Hn x i Hx P Hr. exfalso.
    destruct n as [|[|[|[|n]]]]; cbn in Hn; [| | | |destruct n; discriminate Hn]; injection Hn as <-; cbn in Hx;
      destruct Hx as [<-|[<-|[]]]; try (apply P; reflexivity); cbn in Hr;
      try (destruct Hr as (p & sg & [Hr|[Hr|[Hr|[]]]] & Hp & Hb); injection Hr as <- <-; cbn in Hb; destruct Hb as [Hb|[]]; try discriminate Hb; try congruence);
      try (destruct Hr as (p & sg & [Hr|[Hr|[]]] & Hp & Hb); injection Hr as <- <-; cbn in Hb; destruct Hb as [Hb|[]]; try discriminate Hb; try congruence);
      try (destruct Hr as [Hr|[]]; try discriminate Hr).
Qed.
Lemma adder_simple : simple adder [y2; z1] /\ all_gates adder /\ Permutation adder_order (cells adder).
Proof.
  split; [|split].
  - split; [|split; [|split; [|split]]].
    + intros x Hx. cbn in Hx. destruct Hx as [<-|[<-|[<-|[<-|[]]]]]; cbn; split; try discriminate; auto.
    + intros n c p s Hc Hp -> b Hb. cbn in Hc. destruct Hc as [Hc|[Hc|[Hc|[]]]]; injection Hc as <- <-; cbn in Hp;
        repeat (destruct Hp as [Hp|Hp]; [try discriminate Hp; injection Hp as <-; destruct Hb as [Hb|[]]; discriminate Hb|]); destruct Hp.
    + intros l r Hc. cbn in Hc. destruct Hc as [Hc|[]]. injection Hc as <- <-. split; [discriminate|]. intros b [Hb|[]]. discriminate Hb.
    + intros x Hx W. cbn in Hx. destruct Hx as [<-|[<-|[]]]; [discriminate W|]. left. exists "c3", not_cell. split; [cbn; auto|].
      exists [Bit "\z" 0]. cbn; auto.
    + intros l r y Hc Hy W E. cbn in Hc. destruct Hc as [Hc|[]]. injection Hc as <- <-. exfalso. apply W. apply whole_one in E. tauto.
  - intros n c Hc. cbn in Hc. destruct Hc as [Hc|[Hc|[Hc|[]]]]; injection Hc as <- <-; eexists; (split; [reflexivity|discriminate]).
  - unfold adder_order. cbn. apply Permutation_sym. apply (Permutation_cons_app [("c1", and_cell); ("c2", xor_cell)] []). reflexivity.
Qed.
Definition adder_rho : assignment := fun w i =>
  if String.eqb w "\x" then true else if String.eqb w "\y" then Nat.eqb i 1 else if String.eqb w "$t" then true else false.
Example C84_nonvacuous :
  exists f, import_module Boolean adder (map fst adder_order) = Some f /\ consistent adder adder_rho /\
    (forall x i, In x [y2; z1] -> i < width x -> driven adder (Bit (wname x) i)) /\
    run f [VTensor [true; true]] = Some [VTensor [false; true]; VBit false].
Proof.
  eexists. split; [vm_compute; reflexivity|]. split; [|split].
  - split.
    + intros n c H. cbn in H. destruct H as [H|[H|[H|[]]]]; injection H as <- <-; reflexivity.
    + intros l r H. cbn in H. destruct H as [H|[]]; injection H as <- <-; reflexivity.
  - intros x i Hx Hi. cbn in Hx. destruct Hx as [<-|[<-|[]]]; cbn in Hi.
    + destruct i as [|[|i]]; [| |lia].
      * left. exists "c2", xor_cell. split; [cbn; auto|]. exists [Bit "\y" 0]. cbn; auto.
      * right. exists [Bit "\y" 1], [Bit "$t" 0]. cbn; auto.
    + assert (i = 0) by lia. subst i. left. exists "c3", not_cell. split; [cbn; auto|]. exists [Bit "\z" 0]. cbn; auto.
  - vm_compute. reflexivity.
Qed.
Example C84_import_nonvacuous : exists f, import_module Boolean adder (map fst adder_order) = Some f /\
  forall rho, consistent adder rho -> (forall x i, In x [y2; z1] -> i < width x -> driven adder (Bit (wname x) i)) ->
    run f (map (wire_value rho) [x2]) = Some (map (wire_value rho) [y2; z1]).
Proof.
  destruct adder_simple as (S1 & S2 & S3). destruct adder_topological as [T1 T2].
  apply (C84_import Boolean adder [x2] [y2; z1] adder_order adder_ok S1 S2 S3 T1 T2).
Qed.

(** A lookup table: y[1] is x[0] and not x[1]. *)
Definition lut_cell : cell :=
  {| ctype := "\lut2"; conns := [("\A", [Bit "\x" 0]); ("\B", [Bit "\x" 1]); ("\P0", [Const false]); ("\P1", [Const true]);
                                 ("\P2", [Const false]); ("\P3", [Const false]); ("\Y", [Bit "\y" 1])] |}.
Definition lut_module : module :=
  {| wires := [x2; y2; z1]; cells := [("c", lut_cell)]; connections := [([Bit "\z" 0; Bit "\y" 0], [Bit "\y" 1; Const true])] |}.
Example C84_lut_nonvacuous :
  cell_ok lut_cell /\
  exists f, import_module LUT lut_module ["c"] = Some f /\
    run f [VTensor [true; false]] = Some [VTensor [true; true]; VBit true] /\
    run f [VTensor [true; true]] = Some [VTensor [true; false]; VBit false].
Proof.
  split.
  - split; [repeat constructor; cbn; intuition discriminate|]. split.
    + intros p s H. cbn in H. repeat (destruct H as [H|H]; [injection H as <- <-; reflexivity|]). destruct H.
    + cbn. split; [|split; [reflexivity|]].
      * intro p. tauto.
      * intros i Hi. destruct i as [|[|[|[|i]]]]; [eexists; reflexivity..|lia].
  - eexists. split; [vm_compute; reflexivity|]. split; vm_compute; reflexivity.
Qed.

(** *** What is not guaranteed *)

(** An output that copies an input as a whole reads as 0 when its bits are used: y = x; z = y[0], in this order. *)
Definition copy_module : module :=
  {| wires := [t1; x2; y2; z1]; cells := []; connections := [(whole y2, whole x2); ([Bit "\z" 0], [Bit "\y" 0])] |}.
Theorem C84_copy_refuted : exists m ins outs f rho,
  module_ok m ins outs /\ simple m outs /\ topological m (steps_of [] m) /\ cells m = [] /\
  import_module Boolean m [] = Some f /\ consistent m rho /\ (forall x i, In x outs -> i < width x -> driven m (Bit (wname x) i)) /\
  run f (map (wire_value rho) ins) <> Some (map (wire_value rho) outs).
Proof.
  exists copy_module, [x2], [y2; z1]. eexists. exists (fun _ _ => true). split; [|split; [|split; [|split; [reflexivity|split; [vm_compute; reflexivity|split; [|split]]]]]].
  - split; [apply adder_ports|]. split; [constructor|]. split; [intros n c []|]. intros l r H. cbn in H. destruct H as [H|[H|[]]]; injection H as <- <-;
      (split; [reflexivity|]); split; range.
  - split; [|split; [|split; [|split]]].
    + intros x Hx. cbn in Hx. destruct Hx as [<-|[<-|[<-|[<-|[]]]]]; cbn; split; try discriminate; auto.
    + intros n c p s [].
    + intros l r Hc. cbn in Hc. destruct Hc as [Hc|[Hc|[]]]; injection Hc as <- <-; (split; [discriminate|]); intros b Hb; cbn in Hb;
        repeat (destruct Hb as [Hb|Hb]; [discriminate Hb|]); destruct Hb.
    + intros x Hx W. cbn in Hx. destruct Hx as [<-|[<-|[]]]; [discriminate W|]. right. exists [Bit "\z" 0], [Bit "\y" 0]. cbn; auto.
    + intros l r y Hc Hy W E. cbn in Hc. destruct Hc as [Hc|[Hc|[]]].
      * injection Hc as <- <-. left. exists y2. split; [cbn; auto|]. split; [reflexivity|]. cbn in Hy.
        destruct Hy as [<-|[<-|[<-|[<-|[]]]]]; [discriminate E|reflexivity|discriminate E|discriminate E].
      * injection Hc as <- <-. exfalso. apply W. apply whole_one in E. tauto.
  - intros before s after E. revert before s after E. apply (split_one (fun before s => forall x i, In x (wires copy_module) -> port_input x = false ->
      reads s (Bit (wname x) i) -> exists s', In s' before /\ drives s' (Bit (wname x) i))).
    intros n s Hn x i Hx P Hr. destruct n as [|[|n]]; cbn in Hn; [| |destruct n; discriminate Hn]; injection Hn as <-; cbn in Hx;
      destruct Hx as [<-|[<-|[<-|[<-|[]]]]]; try discriminate P; cbn in Hr; repeat (destruct Hr as [Hr|Hr]; [try discriminate Hr|]); try (exfalso; exact Hr).
    injection Hr as <-. exists (Connect (whole y2) (whole x2)). cbn; auto.
  - split; [intros n c []|]. intros l r H. cbn in H. destruct H as [H|[H|[]]]; injection H as <- <-; reflexivity.
  - intros x i Hx Hi. right. cbn in Hx. destruct Hx as [<-|[<-|[]]]; cbn in Hi.
    + exists (whole y2), (whole x2). split; [cbn; auto|]. cbn. destruct i as [|[|i]]; auto; lia.
    + exists [Bit "\z" 0], [Bit "\y" 0]. split; [cbn; auto|]. assert (i = 0) by lia. subst i. cbn; auto.
  - vm_compute. discriminate.
Qed.
Print Assumptions C84_copy_refuted.

(** A connection of a whole wire to bits of two wires is not imported: {z1, z0} = x. *)
Definition za : wire := {| wname := "\za"; width := 1; port_id := 2; port_input := false; port_output := true |}.
Definition zb : wire := {| wname := "\zb"; width := 1; port_id := 3; port_input := false; port_output := true |}.
Definition split_module : module :=
  {| wires := [x2; za; zb]; cells := []; connections := [([Bit "\za" 0; Bit "\zb" 0], whole x2)] |}.
Theorem C84_split_refuted : exists m ins outs,
  module_ok m ins outs /\ topological m (steps_of [] m) /\ in_order m outs (steps_of [] m) /\ cells m = [] /\
  (forall x i, In x outs -> i < width x -> driven m (Bit (wname x) i)) /\ (exists rho, consistent m rho) /\
  import_module Boolean m [] = None.
Proof.
  exists split_module, [x2], [za; zb]. split; [|split; [|split; [|split; [reflexivity|split; [|split; [|reflexivity]]]]]].
  - split; [|split; [constructor|split; [intros n c []|]]].
    + split; [|split; [|split]].
      * repeat constructor; cbn; intuition discriminate.
      * intro x. cbn. split; [intros [<-|[]]; repeat split; auto 9|]. intros [[<-|[<-|[<-|[]]]] H]; try discriminate H; auto.
      * intro x. cbn. split; [intros [<-|[<-|[]]]; repeat split; auto 9|]. intros [[<-|[<-|[<-|[]]]] [H H']]; try discriminate H; try discriminate H'; auto.
      * reflexivity.
    + intros l r H. cbn in H. destruct H as [H|[]]. injection H as <- <-. split; [reflexivity|]. split.
      * intros w i H. cbn in H. destruct H as [H|[H|[]]]; injection H as <- <-; [exists za|exists zb]; cbn; auto.
      * intros w i H. cbn in H. destruct H as [H|[H|[]]]; injection H as <- <-; exists x2; cbn; auto.
  - intros before s after E. revert before s after E. apply (split_one (fun before s => forall x i, In x (wires split_module) -> port_input x = false ->
      reads s (Bit (wname x) i) -> exists s', In s' before /\ drives s' (Bit (wname x) i))).
    intros n s Hn x i Hx P Hr. exfalso. destruct n as [|n]; cbn in Hn; [|destruct n; discriminate Hn]. injection Hn as <-. cbn in Hx, Hr.
    destruct Hx as [<-|[<-|[<-|[]]]]; try discriminate P; cbn in Hr; destruct Hr as [Hr|[Hr|[]]]; discriminate Hr.
  - intros before s after E _. revert before s after E. apply (split_one (fun before s => forall x i, In x [za; zb] -> width x <> 1 ->
      reads s (Bit (wname x) i) -> exists s', In s' before /\ drives s' (Bit (wname x) i) /\ ~ is_copy split_module s')).
    intros n s Hn x i Hx P Hr. exfalso. cbn in Hx. destruct Hx as [<-|[<-|[]]]; apply P; reflexivity.
  - intros x i Hx Hi. right. exists [Bit "\za" 0; Bit "\zb" 0], (whole x2). split; [cbn; auto|]. cbn in Hx.
    destruct Hx as [<-|[<-|[]]]; cbn in Hi; assert (i = 0) by lia; subst i; cbn; auto.
  - exists (fun _ _ => true). split; [intros n c []|]. intros l r H. cbn in H. destruct H as [H|[]]. injection H as <- <-. reflexivity.
Qed.
Print Assumptions C84_split_refuted.
