(** Model of topology.hpp: the depth first search over the grid graph, bus numbering, fill-ins and the coupling of
    components to the buses. Vectors indexed by node are total functions; the theorems assume indices in range. *)
From Verif Require Import Common NatMap SparseOrdering.

Definition fupd {A} (k : nat) (v : A) (f : nat -> A) : nat -> A := fun x => if x =? k then v else f x.

Fixpoint foldM_opt {A B} (f : B -> A -> option B) (l : list A) (b : B) : option B :=
  match l with [] => Some b | a :: l' => match f b a with Some b' => foldM_opt f l' b' | None => None end end.

(** calculation_parameters.hpp 436-476: ComponentTopology, ReducedComponentTopology, the part used for the graph *)
Record comp_topo : Type := mkCompTopo {
  n_node : nat;
  branch_node_idx : list (nat * nat);
  branch3_node_idx : list (nat * nat * nat);
  source_node_idx : list nat }.
Definition n_node_total (t : comp_topo) : nat := n_node t + length (branch3_node_idx t).

Section Graph.
(** phase shifts: double *)
Context {P : Type} (padd : P -> P -> P) (p0 : P) (popp : P -> P).

(** calculation_parameters.hpp: ComponentConnections *)
Record comp_conn : Type := mkCompConn {
  branch_connected : list (bool * bool);
  branch_phase_shift : list P;
  branch3_connected : list (bool * bool * bool);
  branch3_phase_shift : list (P * P * P);
  source_connected : list bool }.

(** (source, target, phase shift) *)
Definition edge : Type := nat * nat * P.

(** topology.hpp 201-215 *)
Definition branch_edges (b : nat * nat * ((bool * bool) * P)) : list edge :=
  let '((i, j), ((si, sj), sh)) := b in
  if si && sj && negb (i =? j) then [(i, j, popp sh); (j, i, sh)] else [].
(** 217-232, [k] is the internal node *)
Definition way_edges (k i : nat) (s : bool) (sh : P) : list edge := if s then [(i, k, popp sh); (k, i, sh)] else [].
Definition branch3_edges (b : nat * ((nat * nat * nat) * ((bool * bool * bool) * (P * P * P)))) : list edge :=
  let '(k, (((i1, i2), i3), (((s1, s2), s3), ((h1, h2), h3)))) := b in
  way_edges k i1 s1 h1 ++ way_edges k i2 s2 h2 ++ way_edges k i3 s3 h3.
(** 196-233 *)
Definition build_sparse_graph (t : comp_topo) (c : comp_conn) : list edge :=
  flat_map branch_edges (combine (branch_node_idx t) (combine (branch_connected c) (branch_phase_shift c))) ++
  flat_map branch3_edges
    (combine (seq (n_node t) (length (branch3_node_idx t)))
       (combine (branch3_node_idx t) (combine (branch3_connected c) (branch3_phase_shift c)))).

(** 232-233: the outgoing edges of a vertex; the compressed sparse row graph keeps their order (boost). *)
Definition out_edges (es : list edge) (u : nat) : list (nat * P) :=
  map (fun e => (snd (fst e), snd e)) (filter (fun e => fst (fst e) =? u) es).

(** ** depth first search *)
Inductive color := White | Gray | Black.
Record dfs_state : Type := mkDfs {
  colors : nat -> color;
  group : nat -> option nat;      (* comp_coup_.node[].group *)
  phase : nat -> P;
  pred : nat -> nat;
  found : list nat;               (* dfs_node *)
  back_edges : list (nat * nat) }.

(** 112-115: discover_vertex, and the colour set by boost *)
Definition discover (m u : nat) (s : dfs_state) : dfs_state :=
  mkDfs (fupd u Gray (colors s)) (fupd u (Some m) (group s)) (phase s) (pred s) (found s ++ [u]) (back_edges s).
(** 83-88 *)
Definition tree_edge (u v : nat) (sh : P) (s : dfs_state) : dfs_state :=
  mkDfs (colors s) (group s) (fupd v (padd (phase s u) sh) (phase s)) (fupd v u (pred s)) (found s) (back_edges s).
(** 96-108 *)
Definition back_edge (u v : nat) (s : dfs_state) : dfs_state :=
  mkDfs (colors s) (group s) (phase s) (pred s) (found s) (if pred s u =? v then back_edges s else back_edges s ++ [(u, v)]).
Definition finish (u : nat) (s : dfs_state) : dfs_state :=
  mkDfs (fupd u Black (colors s)) (group s) (phase s) (pred s) (found s) (back_edges s).

(** boost::depth_first_visit, written recursively (boost keeps the recursion in an explicit stack); None: out of fuel *)
Fixpoint visit (fuel : nat) (es : list edge) (m u : nat) (s : dfs_state) : option dfs_state :=
  match fuel with
  | O => None
  | S fuel' =>
      match foldM_opt (fun s e =>
              match colors s (fst e) with
              | White => visit fuel' es m (fst e) (tree_edge u (fst e) (snd e) s)
              | Gray => Some (back_edge u (fst e) s)
              | Black => Some s
              end) (out_edges es u) (discover m u s) with
      | None => None
      | Some s' => Some (finish u s')
      end
  end.

(** ** bus numbering *)
(** 311-321: mark a node and its predecessors as in a cycle or between the source and a cycle *)
Fixpoint mark_up (fuel : nat) (pr : nat -> nat) (x : nat) (cyc : nat -> bool) : option (nat -> bool) :=
  match fuel with
  | O => None
  | S fuel' => if cyc x then Some cyc else mark_up fuel' pr (pr x) (fupd x true cyc)
  end.
Definition mark_all (fuel : nat) (pr : nat -> nat) (bs : list (nat * nat)) (cyc : nat -> bool) : option (nat -> bool) :=
  foldM_opt (fun cyc b => mark_up fuel pr (fst b) cyc) bs cyc.

(** 337-351 *)
Definition nearest_neighbours (pr : nat -> nat) (cyclic : list nat) (bs : list (nat * nat)) : graph :=
  fold_left (fun d b => if in_graph (fst b) (snd b) d then d else push (fst b) (snd b) d) bs
    (fold_left (fun d x => if pr x =? x then d else mset x [pr x] d) cyclic []).
(** 356-359 *)
Definition permuted (n : nat) (l : list nat) : list (nat * nat) :=
  fold_left (fun m ix => mset (snd ix) (n + fst ix) m) (combine (seq 0 (length l)) l) [].
Definition map_at (m : list (nat * nat)) (x : nat) : nat := match mfind x m with Some y => y | None => 0 end.

(** 302-368: the new node order, the fill-ins in bus numbers and the node statuses *)
Definition reorder_node (fuel : nat) (pr : nat -> nat) (dfs_node : list nat) (bs : list (nat * nat)) (cyc : nat -> bool)
  : option (list nat * list (nat * nat) * (nat -> bool)) :=
  match mark_all fuel pr bs cyc with
  | None => None
  | Some cyc' =>
      let far := filter (fun x => negb (cyc' x)) (rev dfs_node) in
      let cyclic := filter cyc' dfs_node in
      if length cyclic <? 4 then Some (far ++ rev cyclic, [], cyc')
      else
        match minimum_degree_ordering (nearest_neighbours pr cyclic bs) with
        | None => None
        | Some (reordered, fills) =>
            let pi := permuted (length far) reordered in
            Some (far ++ reordered, map (fun f => (map_at pi (fst f), map_at pi (snd f))) fills, cyc')
        end
  end.

(** calculation_parameters.hpp 164-190: MathModelTopology, the part made by the search *)
Record math_graph : Type := mkMathGraph {
  slack_bus : nat;
  is_radial : bool;
  phase_shift : list P;
  fill_in : list (nat * nat) }.

Record search_state : Type := mkSearch {
  dfs : dfs_state;
  in_cycle : nat -> bool;          (* node_status_ *)
  position : nat -> option nat;    (* comp_coup_.node[].pos *)
  models : list math_graph }.

(** 279-289 *)
Definition assign_positions (l : list nat) (pos : nat -> option nat) : nat -> option nat :=
  fold_left (fun p ix => fupd (snd ix) (Some (fst ix)) p) (combine (seq 0 (length l)) l) pos.

(** 243-297: the search from one source *)
Definition search_source (fuel : nat) (es : list edge) (st : search_state) (src : bool * nat) : option search_state :=
  let '(connected, node) := src in
  if negb connected then Some st
  else match group (dfs st) node with
  | Some _ => Some st
  | None =>
      let m := length (models st) in
      let s := dfs st in
      match visit fuel es m node (mkDfs (colors s) (group s) (phase s) (pred s) [] []) with
      | None => None
      | Some s' =>
          match (match back_edges s' with
                 | [] => Some (rev (found s'), [], in_cycle st, true)
                 | bs => match reorder_node fuel (pred s') (found s') bs (in_cycle st) with
                         | None => None
                         | Some (l, f, c) => Some (l, f, c, false)
                         end
                 end) with
          | None => None
          | Some (nodes, fills, cyc, radial) =>
              let pos := assign_positions nodes (position st) in
              let slack := match pos node with Some p => p | None => 0 end in
              Some (mkSearch s' cyc pos
                      (models st ++ [mkMathGraph slack radial (map (phase s') nodes) fills]))
          end
      end
  end.

(** 126-134, 175-190, 234-237: initial state *)
Definition search_init : search_state :=
  mkSearch (mkDfs (fun _ => White) (fun _ => None) (fun _ => p0) (fun x => x) [] []) (fun _ => false) (fun _ => None) [].

(** 239-298 *)
Definition dfs_search (t : comp_topo) (c : comp_conn) : option search_state :=
  foldM_opt (search_source (S (n_node_total t)) (build_sparse_graph t c))
    (combine (source_connected c) (source_node_idx t)) search_init.
End Graph.
