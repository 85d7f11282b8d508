(** Model of the ranking of regulated transformers: optimizer/tap_position_optimizer.hpp 66-428.
    Simplifications: nodes are their sequence numbers; a transformer's index in the container (get_component_idx_by_id) is its position in its list
    (C01, C02); int64 is unbounded, infinity is None and the rank behind all others is [Last]; the adjacency structure of boost is the edges grouped by
    their source in the order of insertion; std::priority_queue is a list from which a least element is taken. *)
From Verif Require Import Common NatMap.

(** component/transformer.hpp, three_winding_transformer.hpp, branch.hpp, source.hpp, transformer_tap_regulator.hpp: what the ranking reads. Sides are 0, 1, 2. *)
Record trafo : Type := mkTrafo { t_id : nat; t_from : nat; t_to : nat; t_from_on : bool; t_to_on : bool }.
Record trafo3 : Type := mkTrafo3 { u_id : nat; u_node : nat -> nat; u_on : nat -> bool; u_tap : nat }.
Record line : Type := mkLine { l_from : nat; l_to : nat; l_from_on : bool; l_to_on : bool }.
Record source : Type := mkSource { s_node : nat; s_on : bool }.
Record regulator : Type := mkReg { r_object : nat; r_branch : bool; r_on : bool; r_side : nat }.
Record grid : Type := mkGrid { n_nodes : nat; trafos : list trafo; trafo3s : list trafo3; lines : list line; links : list line;
  asym_lines : list line; generic_branches : list line; sources : list source; regulators : list regulator }.

(** 82-107; [e_reg] is regulated_idx: the kind of transformer and its position, None is unregulated_idx *)
Record edge : Type := mkEdge { e_src : nat; e_tgt : nat; e_reg : option (bool * nat); e_weight : nat; e_id : nat }.
(** 110-130: std::set of (id, control side), and the search for an id *)
Fixpoint insert (x : nat * nat) (l : list (nat * nat)) : list (nat * nat) :=
  match l with
  | [] => [x]
  | y :: r => if (fst x <? fst y) || ((fst x =? fst y) && (snd x <? snd y)) then x :: l else if (fst x =? fst y) && (snd x =? snd y) then l else y :: insert x r
  end.
Definition contains (s : list (nat * nat)) (id : nat) : option nat := option_map snd (find (fun x => fst x =? id) s).
(** 259-275 *)
Definition regulated (g : grid) (branch : bool) : list (nat * nat) :=
  fold_left (fun s r => if r_on r && Bool.eqb (r_branch r) branch then insert (r_object r, r_side r) s else s) (regulators g) [].
(** unregulated_edge_prop, both directions; na_IntID is not used further *)
Definition both_ways (a b : nat) : list edge := [mkEdge a b None 0 0; mkEdge b a None 0 0].
(** 154-192, one pair of sides *)
Definition pair_edges (u : trafo3) (pos : nat) (info : option nat) (first second : nat) : list edge :=
  if negb (u_on u first) || negb (u_on u second) then []
  else
    let from_node := u_node u first in
    let to_node := u_node u second in
    let tap_at_first := u_tap u =? first in
    match info with
    | Some control =>
      if tap_at_first || (u_tap u =? second) then
        let tap_node := if tap_at_first then from_node else to_node in
        let other_node := if tap_at_first then to_node else from_node in
        let tap_at_control := control =? u_tap u in
        [mkEdge (if tap_at_control then other_node else tap_node) (if tap_at_control then tap_node else other_node) (Some (false, pos)) 1 (u_id u)]
      else both_ways from_node to_node
    | None => both_ways from_node to_node
    end.
Definition trafo3_edges (g : grid) (p : nat * trafo3) : list edge :=
  let info := contains (regulated g false) (u_id (snd p)) in
  pair_edges (snd p) (fst p) info 0 1 ++ pair_edges (snd p) (fst p) info 0 2 ++ pair_edges (snd p) (fst p) info 1 2.
(** 209-234 *)
Definition trafo_edges (g : grid) (p : nat * trafo) : list edge :=
  let t := snd p in
  if negb (t_from_on t) || negb (t_to_on t) then []
  else match contains (regulated g true) (t_id t) with
       | Some control => let c := if control =? 0 then t_from t else t_to t in let o := if control =? 0 then t_to t else t_from t in
                         [mkEdge o c (Some (true, fst p)) 1 (t_id t)]
       | None => both_ways (t_from t) (t_to t)
       end.
(** 236-252 *)
Definition line_edges (l : line) : list edge := if negb (l_from_on l) || negb (l_to_on l) then [] else both_ways (l_from l) (l_to l).
Definition numbered {A} (l : list A) : list (nat * A) := combine (seq 0 (length l)) l.
(** 282-293 *)
Definition all_edges (g : grid) : list edge :=
  flat_map (trafo_edges g) (numbered (trafos g)) ++ flat_map (trafo3_edges g) (numbered (trafo3s g)) ++ flat_map line_edges (lines g) ++ flat_map line_edges (links g).
(** the edges by source, as boost::compressed_sparse_row_graph keeps them *)
Definition out_edges (es : list edge) (v : nat) : list edge := filter (fun e => e_src e =? v) es.
Definition graph_edges (n : nat) (es : list edge) : list edge := flat_map (out_edges es) (seq 0 n).
(** 295-303: the marks of the nodes *)
Definition marks (g : grid) : list bool := fold_left (fun m s => upd (s_node s) (s_on s) m) (sources g) (repeat false (n_nodes g)).

(** 308-334 *)
Definition dist (d : list (option nat)) (v : nat) : option nat := nth v d None.
Definition less (x y : option nat) : bool := match x, y with Some a, Some b => a <? b | Some _, None => true | None, _ => false end.
Definition relax (st : list (option nat) * list (nat * nat)) (e : edge) : list (option nat) * list (nat * nat) :=
  let '(d, q) := st in
  match dist d (e_src e) with
  | Some k => if less (Some (k + e_weight e)) (dist d (e_tgt e)) then (upd (e_tgt e) (Some (k + e_weight e)) d, q ++ [(k + e_weight e, e_tgt e)]) else st
  | None => st
  end.
(** the least entry of the queue and the others *)
Fixpoint pop (q : list (nat * nat)) : option ((nat * nat) * list (nat * nat)) :=
  match q with
  | [] => None
  | x :: r => match pop r with
              | None => Some (x, [])
              | Some (y, r') => if (fst x <? fst y) || ((fst x =? fst y) && (snd x <=? snd y)) then Some (x, r) else Some (y, x :: r')
              end
  end.
Fixpoint search (es : list edge) (fuel : nat) (d : list (option nat)) (q : list (nat * nat)) : option (list (option nat)) :=
  match fuel with
  | O => None
  | S f => match pop q with
           | None => Some d
           | Some ((k, u), q') => if match dist d u with Some k' => k =? k' | None => false end
                                  then let '(d', q'') := fold_left relax (out_edges es u) (d, q') in search es f d' q'' else search es f d q'
           end
  end.
Definition enough (n : nat) : nat := 2 * (n * (n + 1)) + n + 3.
(** 339-344 *)
Definition from_source (es : list edge) (m : list bool) (d : option (list (option nat))) (v : nat) : option (list (option nat)) :=
  match d with
  | None => None
  | Some d => if nth v m false then search es (enough (length d)) (upd v (Some 0) d) [(0, v)] else Some d
  end.
Definition distances (n : nat) (es : list edge) (m : list bool) : option (list (option nat)) := fold_left (from_source es m) (seq 0 n) (Some (repeat None n)).

(** 346-407 *)
Inductive rank : Type := At (k : nat) | Last.
Inductive weighing : Type := Weights (l : list (rank * (bool * nat))) | InvalidSide (ids : list nat) | NotFinished.
Definition weigh (d : list (option nat)) (e : edge) : list (rank * (bool * nat)) :=
  match e_reg e with
  | None => []
  | Some i => match dist d (e_src e), dist d (e_tgt e) with
              | Some a, Some b => if a + 1 =? b then [(At b, i)] else [(Last, i)]
              | _, _ => []
              end
  end.
Definition wrong_side (d : list (option nat)) (e : edge) : list nat :=
  match e_reg e with
  | None => []
  | Some _ => match dist d (e_src e), dist d (e_tgt e) with Some _, None | None, Some _ => [e_id e] | _, _ => [] end
  end.
Definition get_edge_weights (n : nat) (es : list edge) (m : list bool) : weighing :=
  match distances n es m with
  | None => NotFinished
  | Some d => match flat_map (wrong_side d) (graph_edges n es) with [] => Weights (flat_map (weigh d) (graph_edges n es)) | ids => InvalidSide ids end
  end.
(** 409-428; [sort] is std::ranges::sort by rank *)
Definition rank_lt (a b : rank) : bool := match a, b with At x, At y => x <? y | At _, Last => true | Last, _ => false end.
Definition idx_eqb (a b : bool * nat) : bool := Bool.eqb (fst a) (fst b) && (snd a =? snd b).
(** the groups in reverse order, with the previous rank *)
Definition group_step (st : option rank * list (list (bool * nat))) (x : rank * (bool * nat)) : option rank * list (list (bool * nat)) :=
  let '(prev, gs) := st in
  let '(prev, gs) := if match prev with None => true | Some p => rank_lt p (fst x) end then (Some (fst x), [] :: gs) else (prev, gs) in
  match gs with [] => (prev, gs) | cur :: rest => if existsb (idx_eqb (snd x)) cur then (prev, gs) else (prev, (cur ++ [snd x]) :: rest) end.
Definition rank_groups (sort : list (rank * (bool * nat)) -> list (rank * (bool * nat))) (l : list (rank * (bool * nat))) : list (list (bool * nat)) :=
  rev (snd (fold_left group_step (sort l) (None, []))).
Inductive ranking : Type := Groups (gs : list (list (bool * nat))) | Refused (ids : list nat) | Endless.
Definition rank_transformers sort (g : grid) : ranking :=
  match get_edge_weights (n_nodes g) (all_edges g) (marks g) with
  | Weights l => Groups (rank_groups sort l) | InvalidSide ids => Refused ids | NotFinished => Endless
  end.
