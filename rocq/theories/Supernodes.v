(** Model of supernodes.hpp: nodes joined by closed links become one topological node. Node numbers in range are assumed. *)
From Verif Require Import Common Topology Coupling.

(** calculation_parameters.hpp 436-455: the vectors of ComponentTopology that hold node numbers. The other vectors are copied
    unchanged (supernodes.hpp 197, 199-205). *)
Record user_topo : Type := mkUserTopo {
  ut_graph : comp_topo;                    (* n_node, branches, three-winding transformers, sources *)
  ut_links : list (nat * nat);
  ut_shunt : list nat;
  ut_load_gen : list nat;
  ut_voltage_sensor : list nat }.

(** 66-79: both directions of the links that are connected at both sides *)
Definition link_edges (l : (nat * nat) * (bool * bool)) : list (nat * nat) :=
  let '((from, to), (cf, ct)) := l in if cf && ct then [(from, to); (to, from)] else [].
Definition internal_edges (links : list (nat * nat)) (conn : list (bool * bool)) : list (nat * nat) :=
  flat_map link_edges (combine links conn).
(** 86-87: compressed sparse row graph; the targets of the edges out of [u] *)
Definition targets (es : list (nat * nat)) (u : nat) : list nat := map snd (filter (fun e => fst e =? u) es).

(** 89: boost::connected_components: depth first search, written recursively; a vertex gets the number of the component when it is
    discovered. None: out of fuel. *)
Fixpoint flood (fuel : nat) (es : list (nat * nat)) (c u : nat) (lab : nat -> option nat) : option (nat -> option nat) :=
  match fuel with
  | O => None
  | S fuel' => foldM_opt (fun lab v => match lab v with Some _ => Some lab | None => flood fuel' es c v lab end) (targets es u) (fupd u (Some c) lab)
  end.
Definition start_vertex (fuel : nat) (es : list (nat * nat)) (s : (nat -> option nat) * nat) (u : nat) : option ((nat -> option nat) * nat) :=
  match fst s u with
  | Some _ => Some s
  | None => match flood fuel es (snd s) u (fst s) with Some lab => Some (lab, S (snd s)) | None => None end
  end.
Definition connected_components (n : nat) (es : list (nat * nat)) : option ((nat -> option nat) * nat) :=
  foldM_opt (start_vertex (S n) es) (seq 0 n) (fun _ => None, 0).

(** 29-50, 54-91, 110-112: TopologicalNodeMapping *)
Record node_mapping : Type := mkMapping { topo_of : list nat; n_topo_nodes : nat }.
Definition at_lab (lab : nat -> option nat) (x : nat) : nat := match lab x with Some c => c | None => x end.
Definition find_link_connected_components (n : nat) (links : list (nat * nat)) (conn : list (bool * bool)) : option node_mapping :=
  match connected_components n (internal_edges links conn) with
  | Some (lab, k) => Some (mkMapping (map (at_lab lab) (seq 0 n)) k)
  | None => None
  end.

(** calculation_parameters.hpp 498-521: TopologicalNode, ComponentToTopoNodeCoupling; the ends of a link are user nodes, None when open *)
Definition user_link : Type := option nat * option nat.
Record topo_node : Type := mkTopoNode { user_nodes : list nat; user_links : list user_link }.
Record topo_coupling : Type := mkTopoCoupling {
  topo_nodes : list topo_node;
  user_node_coup : list (nat * nat);
  user_link_coup : list (option (nat * nat)) }.

Definition at_node (l : list nat) (x : nat) : nat := nth x l 0.
Definition node_of (nodes : list topo_node) (g : nat) : topo_node := nth g nodes (mkTopoNode [] []).
(** 120-128 *)
Definition add_node (s : list topo_node * list (nat * nat)) (xg : nat * nat) : list topo_node * list (nat * nat) :=
  let (x, g) := xg in
  let tn := node_of (fst s) g in
  (upd g (mkTopoNode (user_nodes tn ++ [x]) (user_links tn)) (fst s), snd s ++ [(g, length (user_nodes tn))]).
(** 136-151 *)
Definition conn_end (closed : bool) (x : nat) : option nat := if closed then Some x else None.
Definition link_topo_node (mp : list nat) (from_conn to_conn : option nat) : option nat :=
  match from_conn with Some x => Some (at_node mp x) | None => option_map (at_node mp) to_conn end.
(** 130-162 *)
Definition add_link (mp : list nat) (s : list topo_node * list (option (nat * nat))) (l : (nat * nat) * (bool * bool)) : list topo_node * list (option (nat * nat)) :=
  let '((from, to), (cf, ct)) := l in
  let from_conn := conn_end cf from in
  let to_conn := conn_end ct to in
  match link_topo_node mp from_conn to_conn with
  | None => (fst s, snd s ++ [None])
  | Some g =>
      let tn := node_of (fst s) g in
      (upd g (mkTopoNode (user_nodes tn) (user_links tn ++ [(from_conn, to_conn)])) (fst s), snd s ++ [Some (g, length (user_links tn))])
  end.
(** 114-168 *)
Definition create_topological_nodes (links : list (nat * nat)) (conn : list (bool * bool)) (m : node_mapping) : topo_coupling :=
  let s := fold_left add_node (combine (seq 0 (length (topo_of m))) (topo_of m)) (repeat (mkTopoNode [] []) (n_topo_nodes m), []) in
  let s' := fold_left (add_link (topo_of m)) (combine links conn) (fst s, []) in
  mkTopoCoupling (fst s') (snd s) (snd s').

(** 172-207 *)
Definition remap2 (mp : list nat) (b : nat * nat) : nat * nat := (at_node mp (fst b), at_node mp (snd b)).
Definition remap3 (mp : list nat) (b : nat * nat * nat) : nat * nat * nat := ((at_node mp (fst (fst b)), at_node mp (snd (fst b))), at_node mp (snd b)).
Definition construct_reduced_topology (t : user_topo) (m : node_mapping) : user_topo :=
  let mp := topo_of m in
  let g := ut_graph t in
  mkUserTopo (mkCompTopo (n_topo_nodes m) (map (remap2 mp) (branch_node_idx g)) (map (remap3 mp) (branch3_node_idx g)) (map (at_node mp) (source_node_idx g)))
    [] (map (at_node mp) (ut_shunt t)) (map (at_node mp) (ut_load_gen t)) (map (at_node mp) (ut_voltage_sensor t)).
(** 209-233 *)
Definition dont_reduce_topology (t : user_topo) : user_topo * topo_coupling :=
  let n := n_node_total (ut_graph t) in
  (t, mkTopoCoupling (map (fun x => mkTopoNode [x] []) (seq 0 n)) (map (fun x => (x, 0)) (seq 0 n)) []).
(** 236-246 *)
Definition reduce_topology (t : user_topo) (conn : list (bool * bool)) : option (user_topo * topo_coupling) :=
  match ut_links t with
  | [] => Some (dont_reduce_topology t)
  | _ => match find_link_connected_components (n_node (ut_graph t)) (ut_links t) conn with
         | None => None
         | Some m => Some (construct_reduced_topology t m, create_topological_nodes (ut_links t) conn m)
         end
  end.
