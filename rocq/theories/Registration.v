(** Model of main_core/topology.hpp: from the components to the numbered topology and the switch states, and of the state that
    calculation_preparation.hpp 131-156 builds from it. *)
From Verif Require Import Common NatMap SparseOrdering Container Topology Coupling.

Fixpoint mapO {A B} (f : A -> option B) (l : list A) : option (list B) :=
  match l with
  | [] => Some []
  | a :: l' => match f a, mapO f l' with Some b, Some bs => Some (b :: bs) | _, _ => None end
  end.

(** container.hpp 184-189, main_core/container_queries.hpp 30-34: get_seq by id. None: the id is not there (assert at 187). The type
    of the component is not checked. *)
Definition seq_of_id (g : gettable) (c : mcontainer) (id : Z) : option nat :=
  match map_find (idmap c) id with Some i => get_seq (is_base g) c i | None => None end.

(** container.hpp 300-360: the range of all components of a kind; dereferencing is get_item_by_seq *)
Definition citer (g : gettable) (c : mcontainer) : option (list centry) :=
  mapO (get_item_by_seq (is_base g) c) (seq 0 (size_of (is_base g) c)).

(** topology.hpp 32-43 *)
Definition apply_registration {B} (g : gettable) (c : mcontainer) (func : centry -> option B) : option (list B) :=
  match citer g c with Some l => mapO func l | None => None end.

Definition pairO {A B} (a : option A) (b : option B) : option (A * B) :=
  match a, b with Some a, Some b => Some (a, b) | _, _ => None end.
Definition withO {A B} (a : option A) (b : B) : option (A * B) := option_map (fun x => (x, b)) a.

(** The attributes that decide about the connections and the type of a load or generator; any functions of the component. *)
Record attributes (P LT : Type) : Type := mkAttributes {
  at_branch_status : centry -> bool * bool;
  at_branch_shift : centry -> P;
  at_branch3_status : centry -> bool * bool * bool;
  at_branch3_shift : centry -> P * P * P;
  at_source_status : centry -> bool;
  at_load_gen_type : centry -> LT }.
Arguments mkAttributes {P LT}. Arguments at_branch_status {P LT}. Arguments at_branch_shift {P LT}. Arguments at_branch3_status {P LT}.
Arguments at_branch3_shift {P LT}. Arguments at_source_status {P LT}. Arguments at_load_gen_type {P LT}.

Section Register.
Context {P LT : Type}.
Variable at_ : attributes P LT.
Variable c : mcontainer.

Notation node_seq := (seq_of_id (GExact Node) c).
(** topology.hpp 51-58 *)
Definition reg_branch (e : centry) : option (nat * nat) :=
  match e_in e with IBranch f t => pairO (node_seq f) (node_seq t) | _ => None end.
(** 60-69 *)
Definition reg_branch3 (e : centry) : option (nat * nat * nat) :=
  match e_in e with IBranch3 a b d => pairO (pairO (node_seq a) (node_seq b)) (node_seq d) | _ => None end.
(** 71-97: source, shunt, load or generator *)
Definition reg_appliance (e : centry) : option nat := match e_in e with IAppliance n => node_seq n | _ => None end.
(** 99-107 *)
Definition reg_voltage_sensor (e : centry) : option nat := match e_in e with IVoltageSensor n => node_seq n | _ => None end.
(** 109-150 *)
Definition reg_power_sensor (e : centry) : option (nat * Coupling.terminal) :=
  match e_in e with
  | IPowerSensor o ty =>
      match ty with
      | t_branch_from => withO (seq_of_id GBranch c o) T_branch_from
      | t_branch_to => withO (seq_of_id GBranch c o) T_branch_to
      | t_source => withO (seq_of_id (GExact Source) c o) T_source
      | t_shunt => withO (seq_of_id (GExact Shunt) c o) T_shunt
      | t_load => withO (seq_of_id GGenericLoadGen c o) T_load
      | t_generator => withO (seq_of_id GGenericLoadGen c o) T_generator
      | t_branch3_1 => withO (seq_of_id GBranch3 c o) T_branch3_1
      | t_branch3_2 => withO (seq_of_id GBranch3 c o) T_branch3_2
      | t_branch3_3 => withO (seq_of_id GBranch3 c o) T_branch3_3
      | t_node => withO (node_seq o) T_node
      | t_invalid => None                       (* MissingCaseForEnumError *)
      end
  | _ => None
  end.
(** 152-182 *)
Definition reg_current_sensor (e : centry) : option (nat * Coupling.terminal) :=
  match e_in e with
  | ICurrentSensor o ty =>
      match ty with
      | t_branch_from => withO (seq_of_id GBranch c o) T_branch_from
      | t_branch_to => withO (seq_of_id GBranch c o) T_branch_to
      | t_branch3_1 => withO (seq_of_id GBranch3 c o) T_branch3_1
      | t_branch3_2 => withO (seq_of_id GBranch3 c o) T_branch3_2
      | t_branch3_3 => withO (seq_of_id GBranch3 c o) T_branch3_3
      | _ => None
      end
  | _ => None
  end.
(** 184-206. The flag is regulated_object_type == generic_load_gen; the type of the object is that of main_core/input.hpp 181-230. *)
Definition reg_regulator (e : centry) : option (nat * bool) :=
  match e_in e with
  | ITapRegulator o _ =>
      match map_find (idmap c) o with
      | Some i => if is_base GBranch (fst i) then withO (seq_of_id GBranch c o) false else withO (seq_of_id GBranch3 c o) false
      | None => None
      end
  | IVoltageRegulator o => withO (seq_of_id GGenericLoadGen c o) true
  | _ => None
  end.

(** 45-49, 232-245: construct_topology. Links are branches: no overload registers link_node_idx at this commit. *)
Definition construct_topology : option (comp_topo * objects LT) :=
  match apply_registration GBranch c reg_branch, apply_registration GBranch3 c reg_branch3,
        apply_registration (GExact Source) c reg_appliance, apply_registration (GExact Shunt) c reg_appliance,
        apply_registration GGenericLoadGen c reg_appliance, apply_registration GGenericLoadGen c (fun e => Some (at_load_gen_type at_ e)),
        apply_registration GGenericVoltageSensor c reg_voltage_sensor, apply_registration GGenericPowerSensor c reg_power_sensor,
        apply_registration GGenericCurrentSensor c reg_current_sensor, apply_registration GRegulator c reg_regulator with
  | Some br, Some br3, Some so, Some sh, Some lg, Some ty, Some vs, Some ps, Some cs, Some rg =>
      Some (mkCompTopo (size_of (is_base (GExact Node)) c) br br3 so, mkObjects sh lg ty vs ps cs rg)
  | _, _, _, _, _, _, _, _, _, _ => None
  end.

(** 208-230, 247-257: construct_components_connections *)
Definition construct_connections : option (comp_conn (P := P)) :=
  match apply_registration GBranch c (fun e => Some (at_branch_status at_ e)), apply_registration GBranch c (fun e => Some (at_branch_shift at_ e)),
        apply_registration GBranch3 c (fun e => Some (at_branch3_status at_ e)), apply_registration GBranch3 c (fun e => Some (at_branch3_shift at_ e)),
        apply_registration (GExact Source) c (fun e => Some (at_source_status at_ e)) with
  | Some a, Some b, Some d, Some e, Some f => Some (mkCompConn a b d e f)
  | _, _, _, _, _ => None
  end.

(** MainModelState (main_core/state.hpp) after calculation_preparation.hpp 131-156. As no links are registered, reduce_topology is
    dont_reduce_topology (supernodes.hpp 209-233, 239-241): the topology is unchanged and user node [i] is topological node [i] with
    position 0. *)
Record model_state : Type := mkState {
  st_topo : comp_topo;
  st_conn : comp_conn (P := P);
  st_objects : objects LT;
  st_search : search_state (P := P);
  st_coupled : coupled (LT := LT);
  st_user_to_topo : list (nat * nat);
  st_topo_nodes : list (list nat) }.
Variable padd : P -> P -> P.
Variable p0 : P.
Variable popp : P -> P.
Variable sort : list (nat * nat) -> list (nat * nat).
Variable criterion : nat -> nat -> bool.
Definition build_state : option model_state :=
  match construct_topology, construct_connections with
  | Some (t, o), Some cn =>
      match build_topology padd p0 popp sort criterion t cn o with
      | Some (se, cp) => Some (mkState t cn o se cp (map (fun i => (i, 0)) (seq 0 (n_node_total t))) (map (fun i => [i]) (seq 0 (n_node_total t))))
      | None => None
      end
  | _, _ => None
  end.
End Register.
