(** Model of topology.hpp 137-156 and 370-697: coupling of branches, appliances, regulators and sensors to the math models.
    Vectors indexed by component or by math model are total functions; the theorems assume indices in range. An Idx2D is an
    option: None is {-1, -1}; the bus of an open branch end is None (-1). *)
From Verif Require Import Common NatMap SparseOrdering GroupedIdx Topology TopologyProps.

Definition idx2d : Type := option (nat * nat).

(** common/enum.hpp 43-54: MeasuredTerminalType *)
Inductive terminal := T_branch_from | T_branch_to | T_source | T_shunt | T_load | T_generator | T_branch3_1 | T_branch3_2 | T_branch3_3 | T_node.

(** calculation_parameters.hpp 457-476: the other vectors of ReducedComponentTopology. [regulators]: the regulated object and
    whether its type is generic_load_gen. *)
Record objects (LT : Type) : Type := mkObjects {
  shunt_node : list nat;
  load_gen_node : list nat;
  load_gen_types : list LT;
  voltage_sensor_node : list nat;
  power_sensors : list (nat * terminal);
  current_sensors : list (nat * terminal);
  regulators : list (nat * bool) }.
Arguments mkObjects {LT}. Arguments shunt_node {LT}. Arguments load_gen_node {LT}. Arguments load_gen_types {LT}.
Arguments voltage_sensor_node {LT}. Arguments power_sensors {LT}. Arguments current_sensors {LT}. Arguments regulators {LT}.

(** ** branches *)
(** BranchIdx: buses of the two ends *)
Definition branch_buses : Type := option nat * option nat.
(** 371-377 *)
Definition pos_if (status : bool) (math_idx : idx2d) : option nat := if status then option_map snd math_idx else None.
Definition group_if (status : bool) (math_idx : idx2d) : option nat := if status then option_map fst math_idx else None.
Definition or_else {A} (a b : option A) : option A := match a with Some _ => a | None => b end.

Record branch_state : Type := mkBranchState {
  branch_bus_idx : nat -> list branch_buses;                 (* per math model *)
  branch_coupling : nat -> idx2d;
  branch3_coupling : nat -> option (nat * (nat * nat * nat)) }.
Definition push_branch (g : nat) (b : branch_buses) (s : branch_state) : branch_state :=
  mkBranchState (fupd g (branch_bus_idx s g ++ [b]) (branch_bus_idx s)) (branch_coupling s) (branch3_coupling s).

(** 379-413 *)
Definition couple_branch2 (node : nat -> idx2d) (s : branch_state) (b : nat * ((nat * nat) * (bool * bool))) : branch_state :=
  let '(k, ((i, j), (si, sj))) := b in
  match or_else (group_if si (node i)) (group_if sj (node j)) with
  | None => s
  | Some g =>
      let s' := push_branch g (pos_if si (node i), pos_if sj (node j)) s in
      mkBranchState (branch_bus_idx s') (fupd k (Some (g, length (branch_bus_idx s g))) (branch_coupling s')) (branch3_coupling s')
  end.
(** 415-461. [j] is the internal node; 424-433: the last side with a group wins. *)
Definition couple_branch3 (node : nat -> idx2d) (s : branch_state) (b : nat * (nat * ((nat * nat * nat) * (bool * bool * bool)))) : branch_state :=
  let '(k, (j, (((i1, i2), i3), ((s1, s2), s3)))) := b in
  match or_else (group_if s3 (node i3)) (or_else (group_if s2 (node i2)) (group_if s1 (node i1))) with
  | None => s
  | Some g =>
      let jp := option_map snd (node j) in
      let n := length (branch_bus_idx s g) in
      let s' := push_branch g (pos_if s3 (node i3), jp) (push_branch g (pos_if s2 (node i2), jp) (push_branch g (pos_if s1 (node i1), jp) s)) in
      mkBranchState (branch_bus_idx s') (branch_coupling s') (fupd k (Some (g, ((n, S n), S (S n)))) (branch3_coupling s'))
  end.
(** 370-462 *)
Definition couple_branch {P} (node : nat -> idx2d) (t : comp_topo) (c : comp_conn (P := P)) : branch_state :=
  let s0 := mkBranchState (fun _ => []) (fun _ => None) (fun _ => None) in
  let s1 := fold_left (couple_branch2 node)
    (combine (seq 0 (length (branch_node_idx t))) (combine (branch_node_idx t) (branch_connected c))) s0 in
  fold_left (couple_branch3 node)
    (combine (seq 0 (length (branch3_node_idx t)))
       (combine (seq (n_node t) (length (branch3_node_idx t))) (combine (branch3_node_idx t) (branch3_connected c)))) s1.

(** ** other objects *)
Section Objects.
(** std::sort and the choice of algorithm of index_mapping.hpp *)
Variable sort : list (nat * nat) -> list (nat * nat).
Variable criterion : nat -> nat -> bool.

(** a grouped index vector in either representation *)
Inductive grouped := G_dense (d : dense) | G_sparse (indptr : list nat).
Definition group_at (gr : grouped) (e : nat) : option nat :=
  match gr with
  | G_dense d => dense_group d e
  | G_sparse p => if e <? sparse_element_size p then Some (sparse_group p e) else None
  end.
Definition element_size (gr : grouped) : nat :=
  match gr with G_dense d => dense_element_size d | G_sparse p => sparse_element_size p end.

(** 541-551 *)
Definition make_grouped (is_sparse : bool) (obj : list nat) (n_obj : nat) : grouped * list nat :=
  if is_sparse then let (indptr, reorder) := build_sparse_mapping obj n_obj in (G_sparse (sparse_of_indptr indptr), reorder)
  else let (vec, reorder) := build_dense_mapping sort criterion obj n_obj in (G_dense (mkDense n_obj vec), reorder).

(** 520-531: per math model the (object, component) pairs *)
Definition collect (find : nat -> idx2d) (include : nat -> bool) (n : nat) : nat -> list (nat * nat) :=
  fold_left (fun acc k =>
    if include k then
      match find k with Some (g, p) => fupd g (acc g ++ [(p, k)]) acc | None => acc end
    else acc) (seq 0 n) (fun _ => []).
(** 553-559 *)
Definition store (g : nat) (oc : list (nat * nat)) (reorder : list nat) (coupling : nat -> idx2d) : nat -> idx2d :=
  fold_left (fun cp no => fupd (snd (nth (snd no) oc (0, 0))) (Some (g, fst no)) cp) (combine (seq 0 (length reorder)) reorder) coupling.
(** 509-561 *)
Definition couple_objects (is_sparse : bool) (n_topo : nat) (n_obj : nat -> nat) (find : nat -> idx2d) (include : nat -> bool) (n : nat)
    (coupling : nat -> idx2d) : (nat -> grouped) * (nat -> idx2d) :=
  let oc := collect find include n in
  fold_left (fun st g =>
    let (gr, reorder) := make_grouped is_sparse (map fst (oc g)) (n_obj g) in
    (fupd g gr (fst st), store g (oc g) reorder (snd st))) (seq 0 n_topo) (fun _ => G_dense (mkDense 0 []), coupling).

(** 466-472: SingleTypeObjectFinder *)
Definition find_single (obj : list nat) (coupling : nat -> idx2d) (k : nat) : idx2d :=
  match nth_error obj k with Some o => coupling o | None => None end.
(** 477-503: SensorBranchObjectFinder *)
Definition find_branch_side (s : list (nat * terminal)) (b : branch_state) (k : nat) : idx2d :=
  match nth_error s k with
  | Some (o, T_branch_from) => branch_coupling b o
  | Some (o, T_branch3_1) => option_map (fun gp => (fst gp, fst (fst (snd gp)))) (branch3_coupling b o)
  | Some (o, T_branch3_2) => option_map (fun gp => (fst gp, snd (fst (snd gp)))) (branch3_coupling b o)
  | Some (o, T_branch3_3) => option_map (fun gp => (fst gp, snd (snd gp))) (branch3_coupling b o)
  | _ => None
  end.
Definition type_is (f : terminal -> bool) (s : list (nat * terminal)) (k : nat) : bool :=
  match nth_error s k with Some (_, ty) => f ty | None => false end.
Definition is_from (ty : terminal) : bool :=
  match ty with T_branch_from | T_branch3_1 | T_branch3_2 | T_branch3_3 => true | _ => false end.

Context {LT : Type}.
(** 577-587 *)
Definition set_types (coupling : nat -> idx2d) (types : list LT) (init : nat -> nat -> option LT) : nat -> nat -> option LT :=
  fold_left (fun f kt => match coupling (fst kt) with Some (g, p) => fupd g (fupd p (Some (snd kt)) (f g)) f | None => f end)
    (combine (seq 0 (length types)) types) init.

Record coupled : Type := mkCoupled {
  cp_branches : branch_state;
  shunts : (nat -> grouped) * (nat -> idx2d);              (* per math model; per component *)
  load_gens : (nat -> grouped) * (nat -> idx2d);
  math_load_gen_type : nat -> nat -> option LT;
  sources : (nat -> grouped) * (nat -> idx2d);
  voltage_regulators : (nat -> grouped) * (nat -> idx2d);
  voltage_sensors : (nat -> grouped) * (nat -> idx2d);
  sensors_source : nat -> grouped;
  sensors_shunt : nat -> grouped;
  sensors_load_gen : nat -> grouped;
  sensors_branch_from : nat -> grouped;
  sensors_branch_to : nat -> grouped;
  sensors_bus : nat -> grouped;
  power_sensor_coupling : nat -> idx2d;
  current_from : nat -> grouped;
  current_to : nat -> grouped;
  current_sensor_coupling : nat -> idx2d }.

(** 143-147, 563-697: [n_topo] math models, [nb g] buses in math model [g] *)
Definition couple_all {P} (node : nat -> idx2d) (n_topo : nat) (nb : nat -> nat) (t : comp_topo) (c : comp_conn (P := P)) (o : objects LT) : coupled :=
  let none := fun _ : nat => @None (nat * nat) in
  let all := fun _ : nat => true in
  let br := couple_branch node t c in
  let n_branch g := length (branch_bus_idx br g) in
  let sh := couple_objects false n_topo nb (find_single (shunt_node o) node) all (length (shunt_node o)) none in
  let lg := couple_objects true n_topo nb (find_single (load_gen_node o) node) all (length (load_gen_node o)) none in
  let types := set_types (snd lg) (load_gen_types o) (fun _ _ => None) in
  let so := couple_objects false n_topo nb (find_single (source_node_idx t) node)
              (fun k => match nth_error (source_connected c) k with Some b => b | None => false end) (length (source_node_idx t)) none in
  let n_load_gen g := element_size (fst lg g) in
  let vr := couple_objects false n_topo n_load_gen (find_single (map fst (regulators o)) (snd lg))
              (fun k => match nth_error (regulators o) k with Some (_, b) => b | None => false end) (length (regulators o)) none in
  let vs := couple_objects false n_topo nb (find_single (voltage_sensor_node o) node) all (length (voltage_sensor_node o)) none in
  let ps := power_sensors o in
  let single cp := find_single (map fst ps) cp in
  let p1 := couple_objects false n_topo (fun g => element_size (fst so g)) (single (snd so))
              (type_is (fun ty => match ty with T_source => true | _ => false end) ps) (length ps) none in
  let p2 := couple_objects false n_topo (fun g => element_size (fst sh g)) (single (snd sh))
              (type_is (fun ty => match ty with T_shunt => true | _ => false end) ps) (length ps) (snd p1) in
  let p3 := couple_objects false n_topo n_load_gen (single (snd lg))
              (type_is (fun ty => match ty with T_load | T_generator => true | _ => false end) ps) (length ps) (snd p2) in
  let p4 := couple_objects false n_topo n_branch (find_branch_side ps br) (type_is is_from ps) (length ps) (snd p3) in
  let p5 := couple_objects false n_topo n_branch (single (branch_coupling br))
              (type_is (fun ty => match ty with T_branch_to => true | _ => false end) ps) (length ps) (snd p4) in
  let p6 := couple_objects false n_topo nb (single node)
              (type_is (fun ty => match ty with T_node => true | _ => false end) ps) (length ps) (snd p5) in
  let cs := current_sensors o in
  let c1 := couple_objects false n_topo n_branch (find_branch_side cs br) (type_is is_from cs) (length cs) none in
  let c2 := couple_objects false n_topo n_branch (find_single (map fst cs) (branch_coupling br))
              (type_is (fun ty => match ty with T_branch_to => true | _ => false end) cs) (length cs) (snd c1) in
  mkCoupled br sh lg types so vr vs (fst p1) (fst p2) (fst p3) (fst p4) (fst p5) (fst p6) (snd p6) (fst c1) (fst c2) (snd c2).
End Objects.

(** 137-156 *)
Definition build_topology {P LT} (padd : P -> P -> P) (p0 : P) (popp : P -> P) sort criterion (t : comp_topo) (c : comp_conn (P := P)) (o : objects LT)
  : option (search_state (P := P) * coupled (LT := LT)) :=
  match dfs_search padd p0 popp t c with
  | None => None
  | Some st =>
      Some (st, couple_all sort criterion (bus st) (length (models st))
                  (fun g => match nth_error (models st) g with Some m => n_bus m | None => 0 end) t c o)
  end.
