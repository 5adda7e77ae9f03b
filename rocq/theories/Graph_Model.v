(** Model of lib/Utils/Graph/Graph.h.

    The vertex type V is [nat] with its usual order.  std::set is a strictly
    increasing list; std::map is a total function (a missing key reads as the
    default value, as operator[] does); queues, stacks and vectors are lists.
    Edge weights, the edge cache and the merge callback of contractEdge are
    left out: nothing modelled here reads them. *)
From Coq Require Import ZArith List Bool Arith.
From Verif Require Import Words.
Import ListNotations.
Open Scope nat_scope.

(** ** std::set *)
Fixpoint set_insert (x : nat) (l : list nat) : list nat :=
  match l with
  | [] => [x]
  | y :: r => if x <? y then x :: l else if x =? y then l else y :: set_insert x r
  end.
Definition set_count (x : nat) (l : list nat) : bool := existsb (Nat.eqb x) l.
Definition set_erase (x : nat) (l : list nat) : list nat := filter (fun y => negb (y =? x)) l.

Definition upd {A} (f : nat -> A) (k : nat) (v : A) : nat -> A :=
  fun i => if i =? k then v else f i.

(** ** Graph.h:26-111, 505-512: the directed graph *)
Record graph := { verts : list nat; outE : nat -> list nat; inE : nat -> list nat }.
Definition empty_graph : graph := {| verts := []; outE := fun _ => []; inE := fun _ => [] |}.

(** Graph.h:31 *)
Definition add_vertex (v : nat) (g : graph) : graph :=
  {| verts := set_insert v (verts g); outE := outE g; inE := inE g |}.
(** Graph.h:44-53 *)
Definition add_edge (s t : nat) (g : graph) : bool * graph :=
  if negb (set_count s (verts g)) || negb (set_count t (verts g)) then (false, g)
  else (true, {| verts := verts g;
                 outE := upd (outE g) s (set_insert t (outE g s));
                 inE := upd (inE g) t (set_insert s (inE g t)) |}).
(** Graph.h:55-59 *)
Definition has_edge (g : graph) (s t : nat) : bool :=
  if negb (set_count s (verts g)) || negb (set_count t (verts g)) then false
  else set_count t (outE g s).
(** Graph.h:82-90, 93-101 *)
Definition edges_out_of (g : graph) (v : nat) : list nat := if set_count v (verts g) then outE g v else [].
Definition edges_into (g : graph) (v : nat) : list nat := if set_count v (verts g) then inE g v else [].

(** ** Graph.h:116-162 [contractEdge] *)
Definition erase_in (t : nat) (g : graph) (succ : nat) : graph :=
  {| verts := verts g; outE := outE g; inE := upd (inE g) succ (set_erase t (inE g succ)) |}.
Definition erase_out (t : nat) (g : graph) (pred : nat) : graph :=
  {| verts := verts g; outE := upd (outE g) pred (set_erase t (outE g pred)); inE := inE g |}.
(** the result: whether the edge existed, and the graph afterwards *)
Definition contract_edge (s t : nat) (g : graph) : bool * graph :=
  if negb (has_edge g s t) then (false, g)
  else
    let g1 := fold_left (fun g succ => if negb (succ =? s) then snd (add_edge s succ g) else g) (edges_out_of g t) g in
    let g2 := fold_left (fun g pred => if negb (pred =? s) then snd (add_edge pred s g) else g) (edges_into g1 t) g1 in
    let g3 := erase_out t g2 s in
    let g4 := fold_left (erase_in t) (edges_out_of g3 t) g3 in
    let g5 := fold_left (erase_out t) (edges_into g4 t) g4 in
    (true, {| verts := set_erase t (verts g5); outE := upd (outE g5) t []; inE := upd (inE g5) t [] |}).

(** ** Graph.h:177-213 [getStronglyConnectedComponents] (Tarjan's algorithm) *)
(** the head of [stack] is its back; indices are unbounded (int in the code) *)
Record tstate := { index : nat -> option nat; lowlink : nat -> nat; stack : list nat; current : nat; comps : list (list nat) }.
Definition ix (st : tstate) (v : nat) : nat := match index st v with Some n => n | None => 0 end.
(** 184-185 *)
Definition enter (v : nat) (st : tstate) : tstate :=
  {| index := upd (index st) v (Some (current st)); lowlink := upd (lowlink st) v (current st);
     stack := v :: stack st; current := S (current st); comps := comps st |}.
Definition lower (v n : nat) (st : tstate) : tstate :=
  {| index := index st; lowlink := upd (lowlink st) v (Nat.min (lowlink st v) n);
     stack := stack st; current := current st; comps := comps st |}.
(** 198-203: the component and the rest of the stack; [None] = empty stack *)
Fixpoint pop_until (v : nat) (stk scc : list nat) : option (list nat * list nat) :=
  match stk with
  | [] => None
  | w :: r => if w =? v then Some (set_insert w scc, r) else pop_until v r (set_insert w scc)
  end.
(** 196-205 *)
Definition leave (v : nat) (st : tstate) : option tstate :=
  if lowlink st v =? ix st v then
    match pop_until v (stack st) [] with
    | Some (scc, r) => Some {| index := index st; lowlink := lowlink st; stack := r; current := current st; comps := comps st ++ [scc] |}
    | None => None
    end
  else Some st.
(** 187-194: one successor; [dfs] is the recursive call *)
Definition successor (dfs : nat -> tstate -> option tstate) (v : nat) (ost : option tstate) (w : nat) : option tstate :=
  match ost with
  | None => None
  | Some st =>
      match index st w with
      | None => match dfs w st with Some st' => Some (lower v (lowlink st' w) st') | None => None end
      | Some n => Some (if set_count w (stack st) then lower v n st else st)
      end
  end.
(** 183-207; [None] = out of fuel *)
Fixpoint dfs (fuel : nat) (g : graph) (v : nat) (st : tstate) : option tstate :=
  match fuel with
  | O => None
  | S f =>
      match fold_left (successor (dfs f g) v) (edges_out_of g v) (Some (enter v st)) with
      | Some st' => leave v st'
      | None => None
      end
  end.
(** 209-212 *)
Definition tarjan_root (fuel : nat) (g : graph) (ost : option tstate) (v : nat) : option tstate :=
  match ost with
  | None => None
  | Some st => match index st v with None => dfs fuel g v st | Some _ => Some st end
  end.
Definition strongly_connected_components (g : graph) : option (list (list nat)) :=
  match fold_left (tarjan_root (length (verts g)) g) (verts g)
          (Some {| index := fun _ => None; lowlink := fun _ => 0; stack := []; current := 0; comps := [] |}) with
  | Some st => Some (comps st)
  | None => None
  end.

(** ** Graph.h:232-258 [condenseGraph] *)
(** 247-252: the edges out of u as they were when u was reached *)
Definition absorb (u : nat) (st : graph * list nat) (v : nat) : graph * list nat :=
  let '(g, alive) := st in
  if set_count v alive then (snd (contract_edge u v g), set_erase v alive) else st.
(** 245-246 *)
Definition absorb_all (st : graph * list nat) (u : nat) : graph * list nat :=
  if set_count u (snd st) then fold_left (absorb u) (edges_out_of (fst st) u) st else st.
(** 241-255; [None] = out of fuel *)
Fixpoint condense_component (fuel : nat) (g : graph) (alive : list nat) : option graph :=
  if length alive <=? 1 then Some g
  else match fuel with
       | O => None
       | S f => let '(g', alive') := fold_left absorb_all alive (g, alive) in condense_component f g' alive'
       end.
Definition condense_step (og : option graph) (scc : list nat) : option graph :=
  match og with
  | None => None
  | Some g => if length scc <=? 1 then Some g else condense_component (length scc) g scc
  end.
Definition condense (g : graph) : option graph :=
  match strongly_connected_components g with
  | None => None
  | Some sccs => fold_left condense_step sccs (Some g)
  end.

(** ** Graph.h:316-346 [topologicalSort] (Kahn's algorithm) *)

(** 332-337: decrement the counts of the targets, pushing those that reach 0;
    the head of [active] is the back of the vector *)
Definition kahn_target (st : (nat -> Z) * list nat) (t : nat) : (nat -> Z) * list nat :=
  let '(cnt, active) := st in
  let c := (cnt t - 1)%Z in
  (upd cnt t c, if (c =? 0)%Z then t :: active else active).
(** 328-338; [None] = out of fuel; the result is kept reversed *)
Fixpoint kahn (fuel : nat) (g : graph) (cnt : nat -> Z) (active result : list nat) : option (list nat) :=
  match active with
  | [] => Some (rev result)
  | s :: rest =>
      match fuel with
      | O => None
      | S f =>
          let '(cnt', active') := fold_left kahn_target (edges_out_of g s) (cnt, rest) in
          kahn f g cnt' active' (s :: result)
      end
  end.
(** 320-327: the vertices are visited in increasing order, so the last one is the back *)
Definition initial_active (g : graph) : list nat :=
  rev (filter (fun v => length (edges_into g v) =? 0) (verts g)).
(** outer [None] = out of fuel (excluded by C38), inner [None] = failure() *)
Definition topological_sort (g : graph) : option (option (list nat)) :=
  match kahn (length (verts g)) g (fun v => Z.of_nat (length (edges_into g v))) (initial_active g) [] with
  | None => None
  | Some result => Some (if length result =? length (verts g) then Some result else None)
  end.

(** ** Graph.h:361-396 [sortGraphByLevels] *)

(** 382-389 *)
Definition assign_level (g : graph) (st : (nat -> Z) * Z) (v : nat) : (nat -> Z) * Z :=
  let '(levels, maxLevel) := st in
  let maxSource := fold_left (fun m e => Z.max m (levels e)) (edges_out_of g v) (-1)%Z in
  let l := (1 + maxSource)%Z in
  (upd levels v l, Z.max l maxLevel).
(** 391-396: the map is traversed in key order *)
Definition bucket_levels (g : graph) (levels : nat -> Z) (maxLevel : Z) : list (list nat) :=
  map (fun i => filter (fun v => (maxLevel - levels v =? Z.of_nat i)%Z) (verts g))
      (seq 0 (Z.to_nat (maxLevel + 1))).
Definition sort_by_levels (g : graph) : option (option (list (list nat))) :=
  match topological_sort g with
  | None => None
  | Some None => Some None
  | Some (Some order) =>
      let '(levels, maxLevel) := fold_left (assign_level g) (rev order) (fun _ => 0%Z, 0%Z) in
      Some (Some (bucket_levels g levels maxLevel))
  end.

(** ** Graph.h:399-414 *)
Definition sources (g : graph) : list nat := filter (fun v => length (inE g v) =? 0) (verts g).
Definition sinks (g : graph) : list nat := filter (fun v => length (outE g v) =? 0) (verts g).

(** ** Graph.h:281-312 [findApproximateCriticalPath] *)
Definition approximate_critical_path (g : graph) : option (option (list nat)) :=
  match topological_sort g with
  | None => None
  | Some None => Some None
  | Some (Some r) =>
      if length r <? 3 then Some (Some r)
      else if negb (set_count (hd 0 r) (sources g)) then Some None
      else if negb (set_count (last r 0) (sinks g)) then Some None
      else Some (Some (filter (fun v => negb (set_count v (sources g)) && negb (set_count v (sinks g)))
                         (removelast (tl r)) ++ [last r 0]))
  end.

(** ** Graph.h:427-503 [getShortestPath] *)
Definition umax : Z := (2 ^ 64 - 1)%Z.
Record search := { dist : nat -> Z; link : nat -> option nat }.
(** 475-484: one outgoing edge; [weight] returns a uint64_t and the sum wraps *)
Definition relax (weight : nat -> nat -> Z) (curr : nat) (s : search) (next : nat) : search :=
  let d := wrap 64 (dist s curr + weight curr next) in
  if (dist s next >? d)%Z then
    {| dist := upd (dist s) next d; link := upd (link s) curr (Some next) |}
  else if (dist s curr =? 0)%Z then {| dist := dist s; link := upd (link s) curr (Some next) |}
  else s.
(** 455-485; the fuel bounds the number of queue pops *)
Fixpoint bfs (fuel : nat) (g : graph) (weight : nat -> nat -> Z) (end_ : nat)
    (q visited : list nat) (s : search) : option search :=
  match q with
  | [] => Some s
  | curr :: q' =>
      match fuel with
      | O => None
      | S f =>
          if curr =? end_ then Some {| dist := upd (dist s) curr 0%Z; link := link s |}
          else if set_count curr visited then bfs f g weight end_ q' visited s
          else bfs f g weight end_ (q' ++ outE g curr) (curr :: visited)
                 (fold_left (relax weight curr) (outE g curr) s)
      end
  end.
(** 487-496: a missing key of [linkback] reads as V() = [dflt]; [None] = out of fuel *)
Fixpoint rebuild (fuel : nat) (dflt : nat) (lk : nat -> option nat) (end_ curr : nat) : option (list nat) :=
  if curr =? end_ then Some [end_]
  else match fuel with
       | O => None
       | S f =>
           match rebuild f dflt lk end_ (match lk curr with Some n => n | None => dflt end) with
           | Some p => Some (curr :: p)
           | None => None
           end
       end.
Definition search_from (g : graph) (weight : nat -> nat -> Z) (start end_ : nat) : option search :=
  bfs (2 + list_sum (map (fun v => length (outE g v)) (verts g))) g weight end_ [start] []
    {| dist := upd (fun _ => umax) start 0%Z; link := fun _ => None |}.
(** the two loops in sequence: [None] = a loop ran out of fuel, [Some None] = failure();
    [fuel] bounds the reconstruction loop, which need not terminate.  The map [dist] reads as
    umax for vertices and 0 for other keys; [end_] is assumed to be a vertex. *)
Definition shortest_path (fuel dflt : nat) (g : graph) (weight : nat -> nat -> Z) (start end_ : nat)
  : option (option (list nat)) :=
  match search_from g weight start end_ with
  | None => None
  | Some s =>
      if (dist s end_ =? umax)%Z then Some None
      else match rebuild fuel dflt (link s) end_ start with
           | None => None
           | Some p => Some (Some p)
           end
  end.
(** 427-434: unit weights *)
Definition unit_weight (g : graph) (s t : nat) : Z := if has_edge g s t then 1%Z else umax.

(** ** Graph.h:522-573 [UndirectedGraph] *)
Record ugraph := { uverts : list nat; uedges : nat -> list nat }.
Definition empty_ugraph : ugraph := {| uverts := []; uedges := fun _ => [] |}.
(** Graph.h:529 *)
Definition u_add_vertex (v : nat) (g : ugraph) : ugraph :=
  {| uverts := set_insert v (uverts g); uedges := uedges g |}.
(** Graph.h:540-547 *)
Definition u_add_edge (s t : nat) (g : ugraph) : bool * ugraph :=
  if negb (set_count s (uverts g)) || negb (set_count t (uverts g)) then (false, g)
  else let e1 := upd (uedges g) s (set_insert t (uedges g s)) in
       (true, {| uverts := uverts g; uedges := upd e1 t (set_insert s (e1 t)) |}).
(** Graph.h:558-566 *)
Definition incident (g : ugraph) (v : nat) : list nat := if set_count v (uverts g) then uedges g v else [].

(** ** Graph.h:575-683 [GreedyGraphColoring] *)
Record vinfo := { vi_vertex : nat; vi_sat : nat; vi_unc : nat }.
(** Graph.h:630-637 [operator<] *)
Definition vi_lt (a b : vinfo) : bool :=
  if negb (vi_sat a =? vi_sat b) then vi_sat a <? vi_sat b
  else if negb (vi_unc a =? vi_unc b) then vi_unc a <? vi_unc b
  else vi_vertex b <? vi_vertex a.
Record cstate := { colors : nat -> option nat; ncolors : nat -> list nat;
                   sats : nat -> nat * nat; queue : list vinfo }.
(** priority_queue::top/pop: take out an element not smaller than any other *)
Fixpoint pop_max (best : vinfo) (l : list vinfo) : vinfo * list vinfo :=
  match l with
  | [] => (best, [])
  | x :: r => if vi_lt best x then let '(m, r') := pop_max x r in (m, best :: r')
              else let '(m, r') := pop_max best r in (m, x :: r')
  end.
Definition uncolored (cs : nat -> option nat) (v : nat) : bool :=
  match cs v with None => true | Some _ => false end.
(** Graph.h:640-654 *)
Definition update_saturation (g : ugraph) (st : cstate) (v : nat) : cstate :=
  let unc := length (filter (uncolored (colors st)) (incident g v)) in
  let sat := length (ncolors st v) in
  {| colors := colors st; ncolors := ncolors st; sats := upd (sats st) v (sat, unc);
     queue := {| vi_vertex := v; vi_sat := sat; vi_unc := unc |} :: queue st |}.
(** Graph.h:656-665 *)
Definition update_neighbors (g : ugraph) (color : nat) (st : cstate) (n : nat) : cstate :=
  if uncolored (colors st) n then
    update_saturation g {| colors := colors st; ncolors := upd (ncolors st) n (set_insert color (ncolors st n));
                           sats := sats st; queue := queue st |} n
  else st.
(** Graph.h:607-611: smallest colour not in the set; the search ends within length+1 steps *)
Fixpoint smallest_unused (fuel c : nat) (used : list nat) : nat :=
  match fuel with
  | O => c
  | S f => if set_count c used then smallest_unused f (S c) used else c
  end.
(** Graph.h:590-615; [None] = out of fuel *)
Fixpoint color_loop (fuel : nat) (g : ugraph) (st : cstate) : option (nat -> option nat) :=
  match queue st with
  | [] => Some (colors st)
  | x :: r =>
      match fuel with
      | O => None
      | S f =>
          let '(cur, q) := pop_max x r in
          let v := vi_vertex cur in
          let st := {| colors := colors st; ncolors := ncolors st; sats := sats st; queue := q |} in
          if negb (uncolored (colors st) v) || negb (vi_sat cur =? fst (sats st v)) || negb (vi_unc cur =? snd (sats st v))
          then color_loop f g st
          else
            let c := smallest_unused (S (length (ncolors st v))) 0 (ncolors st v) in
            color_loop f g
              (fold_left (update_neighbors g c) (incident g v)
                 {| colors := upd (colors st) v (Some c); ncolors := ncolors st; sats := sats st; queue := q |})
      end
  end.
(** Graph.h:581-618 *)
Definition color (g : ugraph) : option (nat -> option nat) :=
  let init := {| colors := fun _ => None; ncolors := fun _ => []; sats := fun _ => (0, 0); queue := [] |} in
  let fuel := length (uverts g) + list_sum (map (fun v => length (uedges g v)) (uverts g)) in
  color_loop (S fuel) g (fold_left (update_saturation g) (uverts g) init).
