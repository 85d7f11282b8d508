(** What the numbered topology has to say about the input records. *)
From Verif Require Import Common Container ContainerSpec Topology Coupling Registration.

Section Spec.
Variable data : ctype -> list (Z * cinput).

(** The components of a kind: type by type in storage order, in input order within a type. *)
Definition components (g : gettable) : list centry :=
  flat_map (fun t => if derives g t then map (fun r => mkEntry t (fst r) (snd r)) (data t) else []) all_ctypes.
(** Component [id] has number [k] among the components of kind [g]. *)
Definition number_of (g : gettable) (id : Z) (k : nat) : Prop := exists e, nth_error (components g) k = Some e /\ e_id e = id.
Notation node_no := (number_of (GExact Node)).

(** The kind of object that a sensor of this type measures. *)
Definition measured_kind (ty : Coupling.terminal) : gettable :=
  match ty with
  | T_branch_from | T_branch_to => GBranch
  | T_source => GExact Source
  | T_shunt => GExact Shunt
  | T_load | T_generator => GGenericLoadGen
  | T_branch3_1 | T_branch3_2 | T_branch3_3 => GBranch3
  | T_node => GExact Node
  end.
Definition same_terminal (a : Container.terminal) (b : Coupling.terminal) : Prop :=
  match a, b with
  | t_branch_from, T_branch_from | t_branch_to, T_branch_to | t_source, T_source | t_shunt, T_shunt | t_load, T_load | t_generator, T_generator
  | t_branch3_1, T_branch3_1 | t_branch3_2, T_branch3_2 | t_branch3_3, T_branch3_3 | t_node, T_node => True
  | _, _ => False
  end.

Context {P LT : Type} (at_ : attributes P LT).
Record registered (t : comp_topo) (cn : comp_conn (P := P)) (o : objects LT) : Prop := {
  rg_node : n_node t = length (data Node);
  rg_branch : Forall2 (fun e ij => exists f to, e_in e = IBranch f to /\ node_no f (fst ij) /\ node_no to (snd ij))
    (components GBranch) (branch_node_idx t);
  rg_branch3 : Forall2 (fun e ijk => exists n1 n2 n3, e_in e = IBranch3 n1 n2 n3 /\
      node_no n1 (fst (fst ijk)) /\ node_no n2 (snd (fst ijk)) /\ node_no n3 (snd ijk)) (components GBranch3) (branch3_node_idx t);
  rg_source : Forall2 (fun e i => exists n, e_in e = IAppliance n /\ node_no n i) (components (GExact Source)) (source_node_idx t);
  rg_shunt : Forall2 (fun e i => exists n, e_in e = IAppliance n /\ node_no n i) (components (GExact Shunt)) (shunt_node o);
  rg_load_gen : Forall2 (fun e i => exists n, e_in e = IAppliance n /\ node_no n i) (components GGenericLoadGen) (load_gen_node o);
  rg_types : load_gen_types o = map (at_load_gen_type at_) (components GGenericLoadGen);
  rg_voltage : Forall2 (fun e i => exists n, e_in e = IVoltageSensor n /\ node_no n i) (components GGenericVoltageSensor) (voltage_sensor_node o);
  rg_power : Forall2 (fun e kt => exists x ty, e_in e = IPowerSensor x ty /\ same_terminal ty (snd kt) /\ number_of (measured_kind (snd kt)) x (fst kt))
    (components GGenericPowerSensor) (power_sensors o);
  rg_current : Forall2 (fun e kt => exists x ty, e_in e = ICurrentSensor x ty /\ same_terminal ty (snd kt) /\ number_of (measured_kind (snd kt)) x (fst kt))
    (components GGenericCurrentSensor) (current_sensors o);
  rg_regulator : Forall2 (fun e kb =>
      (exists x side, e_in e = ITapRegulator x side /\ snd kb = false /\ (number_of GBranch x (fst kb) \/ number_of GBranch3 x (fst kb))) \/
      (exists x, e_in e = IVoltageRegulator x /\ snd kb = true /\ number_of GGenericLoadGen x (fst kb)))
    (components GRegulator) (regulators o);
  rg_branch_on : branch_connected cn = map (at_branch_status at_) (components GBranch);
  rg_branch_shift : branch_phase_shift cn = map (at_branch_shift at_) (components GBranch);
  rg_branch3_on : branch3_connected cn = map (at_branch3_status at_) (components GBranch3);
  rg_branch3_shift : branch3_phase_shift cn = map (at_branch3_shift at_) (components GBranch3);
  rg_source_on : source_connected cn = map (at_source_status at_) (components (GExact Source)) }.
End Spec.
