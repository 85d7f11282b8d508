(** Model of main_core/output.hpp, state_queries.hpp, math_output_queries.hpp and topological_node_output.hpp: how results of the
    math models become result records. A record is modelled as the component together with the solver values handed to its
    get_output / get_sc_output; what these functions compute from them is not modelled here. None is undefined behaviour (read out of
    range) or a thrown exception. *)
From Verif Require Import Common NatMap SparseOrdering Container Topology TopologyProps Coupling Registration.

Section Output.
(** V: ComplexValue<sym>; R: VoltageRegulatorSolverOutput apart from the id of the generator *)
Context {V R : Type} (vadd : V -> V -> V) (v0 : V).

(** calculation_parameters.hpp: BranchSolverOutput, ApplianceSolverOutput *)
Record flow : Type := mkFlow { s_f : V; s_t : V; i_f : V; i_t : V }.
Record app : Type := mkApp { a_s : V; a_i : V }.
(** calculation_parameters.hpp 338-350: SolverOutput (without [bus], which is not read by output.hpp) *)
Record solver_out : Type := mkSolverOut {
  so_u : list V;
  so_injection : list V;
  so_branch : list flow;
  so_source : list app;
  so_shunt : list app;
  so_load_gen : list app;
  so_regulator : list (Z * R) }.
(** calculation_parameters.hpp 352-361: ShortCircuitSolverOutput; a branch is (i_f, i_t) *)
Record sc_out : Type := mkScOut {
  sc_u : list V;
  sc_fault : list V;
  sc_branch : list (V * V);
  sc_source : list V;
  sc_shunt : list V }.

(** what is handed to the component; [Null]: get_null_output / get_null_sc_output *)
Inductive shown : Type :=
| Null
| S_node (u injection : V)
| S_branch (b : flow)
| S_branch3 (b1 b2 b3 : flow)
| S_appliance (a : app)
| S_value (v : V)                      (* voltage and power sensors *)
| S_current (i u : V)
| S_tap (position : Z)
| S_regulator (r : R)
| S_sc_node (u : V)
| S_sc_branch (b : V * V)
| S_sc_branch3 (b1 b2 b3 : V * V)
| S_sc_appliance (i : V)
| S_fault (i : V) (node : Z).           (* the node whose rated voltage is used *)

Context {P LT : Type}.
Variable c : mcontainer.
Variable s : model_state (P := P) (LT := LT).

Definition look {S B} (sol : list S) (f : S -> list B) (g p : nat) : option B :=
  match nth_error sol g with Some m => nth_error (f m) p | None => None end.
Definition bindO {A B} (a : option A) (f : A -> option B) : option B := match a with Some x => f x | None => None end.

(** state_queries.hpp 159-164 with 88-157: element [n] of the range that belongs to component type [t], given the base type [g] *)
Definition base_index (g : gettable) (t : ctype) (n : nat) : option nat :=
  option_map (fun b => b + n) (get_start_idx (is_base g) c (ctype_idx t)).

(** ** topological_node_output.hpp *)
Variable sol : list solver_out.
(** math_output_queries.hpp 20-44 for Source and loads/generators *)
Definition appliance_output (t : ctype) (g p : nat) : option app :=
  look sol (match t with Source => so_source | _ => so_load_gen end) g p.
Definition appliance_coupling (t : ctype) : nat -> Coupling.idx2d :=
  match t with Source => snd (sources (st_coupled s)) | _ => snd (load_gens (st_coupled s)) end.
(** 36-49 *)
Definition appliance_nodes (t : ctype) : list nat :=
  match t with Source => source_node_idx (st_topo s) | _ => load_gen_node (st_objects s) end.
Definition appliance_base (t : ctype) : gettable := match t with Source => GExact Source | _ => GGenericLoadGen end.
(** 87-96: += *)
Definition accumulate (acc : list (list V)) (id : nat * nat) (v : V) : option (list (list V)) :=
  bindO (nth_error acc (fst id)) (fun l => bindO (nth_error l (snd id)) (fun x => Some (upd (fst id) (upd (snd id) (vadd x v) l) acc))).
(** 51-69 *)
Definition add_appliance_injection (acc : list (list V)) (t : ctype) : option (list (list V)) :=
  foldM_opt (fun acc n =>
    bindO (base_index (appliance_base t) t n) (fun k =>
      match appliance_coupling t k with
      | None => Some acc
      | Some (g, p) =>
          bindO (appliance_output t g p) (fun out =>
            bindO (nth_error (appliance_nodes t) k) (fun user_node =>
              bindO (nth_error (st_user_to_topo s) user_node) (fun topo_id => accumulate acc topo_id (a_s out))))
      end)) (seq 0 (size_of (is_base (GExact t)) c)) acc.
(** 71-109 *)
Definition injection_types : list ctype := [Source; SymLoad; SymGenerator; AsymLoad; AsymGenerator].
Definition solve_topological_nodes : option (list (list V)) :=
  foldM_opt add_appliance_injection injection_types (map (map (fun _ => v0)) (st_topo_nodes s)).

(** ** output.hpp *)
Variable supernode : list (list V).
Variable tap_positions : list (Z * Z).            (* transformer id, tap position *)

(** 57-72 *)
Definition output_node (n : nat) : option shown :=
  bindO (nth_error (st_user_to_topo s) n) (fun topo_id =>
    match bus (st_search s) (fst topo_id) with
    | None => Some Null
    | Some (g, p) =>
        bindO (look sol so_u g p) (fun u =>
          bindO (nth_error supernode (fst topo_id)) (fun l => option_map (S_node u) (nth_error l (snd topo_id))))
    end).
(** 88-97, 130-139, 150-159, 169-178 *)
Definition output_at {B} (f : solver_out -> list B) (mk : B -> shown) (place : Coupling.idx2d) : option shown :=
  match place with None => Some Null | Some (g, p) => option_map mk (look sol f g p) end.
(** 107-120 *)
Definition output_branch3 (place : option (nat * (nat * nat * nat))) : option shown :=
  match place with
  | None => Some Null
  | Some (g, ((p1, p2), p3)) =>
      bindO (look sol so_branch g p1) (fun b1 => bindO (look sol so_branch g p2) (fun b2 => option_map (S_branch3 b1 b2) (look sol so_branch g p3)))
  end.
(** 189-201 *)
Definition output_voltage_sensor (node_seq : nat) : option shown := output_at so_u S_value (bus (st_search s) node_seq).

(** 219-247, 303-320 *)
Definition object_place (ty : Coupling.terminal) (k : nat) : Coupling.idx2d :=
  let br3 (f : nat * nat * nat -> nat) := option_map (fun gp => (fst gp, f (snd gp))) (branch3_coupling (cp_branches (st_coupled s)) k) in
  match ty with
  | T_branch_from | T_branch_to => branch_coupling (cp_branches (st_coupled s)) k
  | T_source => snd (sources (st_coupled s)) k
  | T_shunt => snd (shunts (st_coupled s)) k
  | T_load | T_generator => snd (load_gens (st_coupled s)) k
  | T_branch3_1 => br3 (fun ps => fst (fst ps))
  | T_branch3_2 => br3 (fun ps => snd (fst ps))
  | T_branch3_3 => br3 (fun ps => snd ps)
  | T_node => bus (st_search s) k
  end.
(** 211-280 *)
Definition output_power_sensor (ty : Coupling.terminal) (k : nat) : option shown :=
  match object_place ty k with
  | None => Some Null
  | Some (g, p) =>
      match ty with
      | T_branch_from | T_branch3_1 | T_branch3_2 | T_branch3_3 => option_map (fun b => S_value (s_f b)) (look sol so_branch g p)
      | T_branch_to => option_map (fun b => S_value (s_t b)) (look sol so_branch g p)
      | T_source => option_map (fun a => S_value (a_s a)) (look sol so_source g p)
      | T_shunt => option_map (fun a => S_value (a_s a)) (look sol so_shunt g p)
      | T_load | T_generator => option_map (fun a => S_value (a_s a)) (look sol so_load_gen g p)
      | T_node => option_map S_value (look sol so_injection g p)
      end
  end.
(** 291-347. 326: the position in the math model is used as the index of a component (get_topology_index takes the Idx2D of a component:
    container_queries.hpp 121-125, container.hpp 177-181). *)
Definition output_current_sensor (ty : Coupling.terminal) (k : nat) : option shown :=
  match ty with
  | T_branch_from | T_branch_to | T_branch3_1 | T_branch3_2 | T_branch3_3 =>
      match object_place ty k with
      | None => Some Null
      | Some (g, p) =>
          bindO (get_seq (is_base GBranch) c (g, p)) (fun idx =>
            bindO (nth_error (branch_node_idx (st_topo s)) idx) (fun nodes =>
              let voltage x := bindO (bus (st_search s) x) (fun gp => look sol so_u (fst gp) (snd gp)) in
              bindO (look sol so_branch g p) (fun b =>
                match ty with
                | T_branch_to => option_map (S_current (i_t b)) (voltage (snd nodes))
                | _ => option_map (S_current (i_f b)) (voltage (fst nodes))
                end)))
      end
  | _ => None                                     (* MissingCaseForEnumError *)
  end.
(** 384-396 *)
Definition output_tap_regulator (e : centry) : option shown :=
  match e_in e with
  | ITapRegulator o _ =>
      match find (fun tp => Z.eqb (fst tp) o) tap_positions with Some tp => Some (S_tap (snd tp)) | None => Some Null end
  | _ => None
  end.
(** 407-421 *)
Definition output_voltage_regulator (e : centry) (k : nat) : option shown :=
  match e_in e with
  | IVoltageRegulator o =>
      match snd (load_gens (st_coupled s)) k with
      | None => Some Null
      | Some (g, _) =>
          bindO (nth_error sol g) (fun m =>
            match find (fun vr => Z.eqb (fst vr) o) (so_regulator m) with Some vr => Some (S_regulator (snd vr)) | None => Some Null end)
      end
  | _ => None
  end.

(** 50-53 and 431-524: one record per component of the type, in the order of the container *)
Definition produce_output (t : ctype) (func : centry -> nat -> option shown) : option (list (centry * shown)) :=
  bindO (citer (GExact t) c) (fun l =>
    mapO (fun ne => option_map (pair (snd ne)) (func (snd ne) (fst ne))) (combine (seq 0 (size_of (is_base (GExact t)) c)) l)).

(** steady state output of component type [t]: the overload selected by 57-421 and the sequence of state_queries.hpp 88-157 *)
Definition output_result (t : ctype) : option (list (centry * shown)) :=
  let base g f := produce_output t (fun e n => bindO (base_index g t n) (f e)) in
  match t with
  | Node => produce_output t (fun _ n => output_node n)
  | Line | AsymLine | Link | GenericBranch | Transformer =>
      base GBranch (fun _ k => output_at so_branch S_branch (branch_coupling (cp_branches (st_coupled s)) k))
  | ThreeWindingTransformer => base GBranch3 (fun _ k => output_branch3 (branch3_coupling (cp_branches (st_coupled s)) k))
  | Shunt => produce_output t (fun _ n => output_at so_shunt S_appliance (snd (shunts (st_coupled s)) n))
  | Source => produce_output t (fun _ n => output_at so_source S_appliance (snd (sources (st_coupled s)) n))
  | SymGenerator | AsymGenerator | SymLoad | AsymLoad =>
      base GGenericLoadGen (fun _ k => output_at so_load_gen S_appliance (snd (load_gens (st_coupled s)) k))
  | SymVoltageSensor | AsymVoltageSensor =>
      base GGenericVoltageSensor (fun _ k => bindO (nth_error (voltage_sensor_node (st_objects s)) k) output_voltage_sensor)
  | SymPowerSensor | AsymPowerSensor =>
      base GGenericPowerSensor (fun _ k => bindO (nth_error (power_sensors (st_objects s)) k) (fun ot => output_power_sensor (snd ot) (fst ot)))
  | SymCurrentSensor | AsymCurrentSensor =>
      base GGenericCurrentSensor (fun _ k => bindO (nth_error (current_sensors (st_objects s)) k) (fun ot => output_current_sensor (snd ot) (fst ot)))
  | Fault => produce_output t (fun _ _ => Some Null)
  | TransformerTapRegulator => base GRegulator (fun e _ => output_tap_regulator e)
  | VoltageRegulator =>
      base GRegulator (fun e k => bindO (nth_error (regulators (st_objects s)) k) (fun ob => output_voltage_regulator e (fst ob)))
  end.

(** ** short circuit: 73-85, 98-104, 121-129, 140-147, 160-165, 179-186, 202-208, 281-288, 348-355, 366-380, 397-404, 423-430 *)
Variable sc : list sc_out.
Variable fault_coupling : list Coupling.idx2d.     (* ComponentToMathCoupling::fault *)
Definition sc_output_at {B} (f : sc_out -> list B) (mk : B -> shown) (place : Coupling.idx2d) : option shown :=
  match place with None => Some Null | Some (g, p) => option_map mk (look sc f g p) end.
Definition sc_output_branch3 (place : option (nat * (nat * nat * nat))) : option shown :=
  match place with
  | None => Some Null
  | Some (g, ((p1, p2), p3)) =>
      bindO (look sc sc_branch g p1) (fun b1 => bindO (look sc sc_branch g p2) (fun b2 => option_map (S_sc_branch3 b1 b2) (look sc sc_branch g p3)))
  end.
Definition sc_output_fault (e : centry) (place : Coupling.idx2d) : option shown :=
  match e_in e with IFault o => sc_output_at sc_fault (fun i => S_fault i o) place | _ => None end.
Definition sc_output_result (t : ctype) : option (list (centry * shown)) :=
  let base g f := produce_output t (fun e n => bindO (base_index g t n) (f e)) in
  match t with
  | Node => produce_output t (fun _ n => bindO (nth_error (st_user_to_topo s) n) (fun topo_id => sc_output_at sc_u S_sc_node (bus (st_search s) (fst topo_id))))
  | Line | AsymLine | Link | GenericBranch | Transformer =>
      base GBranch (fun _ k => sc_output_at sc_branch S_sc_branch (branch_coupling (cp_branches (st_coupled s)) k))
  | ThreeWindingTransformer => base GBranch3 (fun _ k => sc_output_branch3 (branch3_coupling (cp_branches (st_coupled s)) k))
  | Shunt => produce_output t (fun _ n => sc_output_at sc_shunt S_sc_appliance (snd (shunts (st_coupled s)) n))
  | Source => produce_output t (fun _ n => sc_output_at sc_source S_sc_appliance (snd (sources (st_coupled s)) n))
  | Fault => produce_output t (fun e n => bindO (nth_error fault_coupling n) (sc_output_fault e))
  | _ => produce_output t (fun _ _ => Some Null)
  end.
End Output.
(** main_model_impl.hpp 441-460: the records of one component type *)
Definition results {V R P LT} (vadd : V -> V -> V) (v0 : V) (c : mcontainer) (s : model_state (P := P) (LT := LT)) (sol : list (solver_out (V := V) (R := R)))
    (tap_positions : list (Z * Z)) (t : ctype) : option (list (centry * shown (V := V) (R := R))) :=
  bindO (solve_topological_nodes vadd v0 c s sol) (fun supernode => output_result c s sol supernode tap_positions t).
Arguments flow : clear implicits. Arguments app : clear implicits. Arguments solver_out : clear implicits. Arguments sc_out : clear implicits.
Arguments shown : clear implicits.
