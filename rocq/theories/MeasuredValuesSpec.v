(** What the state estimation makes of the sensors, in terms of the grid. *)
From Coq Require Import QArith Qcanon.
From Verif Require Import Common Ext Statistics StatisticsSpec MeasuredValues.
Local Open Scope nat_scope.

Section Spec.
Variable phases : nat.
Variable topo : topology.
Variable inp : input.
Definition load_gen_measurements (o : nat) : list decomposed := pick zero_dec (load_gen_data inp) (load_gen_sensors topo o).
Definition source_measurements (o : nat) : list decomposed := pick zero_dec (source_data inp) (source_sensors topo o).
Definition shunt_measurements (o : nat) : list decomposed := pick zero_dec (shunt_data inp) (shunt_sensors topo o).
Definition bus_measurements (b : nat) : list decomposed := pick zero_dec (bus_data inp) (bus_sensors topo b).
(** The objects are attached to one bus each and numbered within bounds; the values measured are finite and the variances positive or infinite. *)
Record well_formed : Prop := {
  wf_phases : 0 < phases;
  wf_load_gens : forall b, NoDup (load_gens_at topo b) /\ forall o, In o (load_gens_at topo b) -> o < n_load_gen topo;
  wf_sources : forall b, NoDup (sources_at topo b) /\ forall o, In o (sources_at topo b) -> o < n_source topo;
  wf_shunts : forall b, NoDup (shunts_at topo b) /\ forall o, In o (shunts_at topo b) -> o < n_shunt topo;
  wf_load_gen_bus : forall b b' o, In o (load_gens_at topo b) -> In o (load_gens_at topo b') -> b = b';
  wf_source_bus : forall b b' o, In o (sources_at topo b) -> In o (sources_at topo b') -> b = b';
  wf_shunt_bus : forall b b' o, In o (shunts_at topo b) -> In o (shunts_at topo b') -> b = b';
  wf_load_gen_data : forall o d, In d (load_gen_measurements o) -> valid_dec phases d;
  wf_source_data : forall o d, In d (source_measurements o) -> valid_dec phases d;
  wf_shunt_data : forall o d, In d (shunt_measurements o) -> valid_dec phases d;
  wf_bus_data : forall o d, In d (bus_measurements o) -> valid_dec phases d
}.
(** An appliance that is connected, and one of which the power is known from sensors. *)
Definition load_gen_measured (o : nat) : Prop := load_gen_status inp o = true /\ usable_dec phases (load_gen_measurements o).
Definition source_measured (o : nat) : Prop := source_status inp o = true /\ usable_dec phases (source_measurements o).
Definition connected (b : nat) : Prop := (exists o, In o (load_gens_at topo b) /\ load_gen_status inp o = true) \/ (exists o, In o (sources_at topo b) /\ source_status inp o = true).
Definition all_measured (b : nat) : Prop :=
  (forall o, In o (load_gens_at topo b) -> load_gen_status inp o = true -> load_gen_measured o) /\ (forall o, In o (sources_at topo b) -> source_status inp o = true -> source_measured o).
(** The measured real and imaginary power of one phase, from the combined sensors. *)
Definition part (imaginary : bool) (d : decomposed) : rand_var := if imaginary then im d else re d.
Definition part_of (imaginary : bool) (s : power) : nat -> ext := if imaginary then snd s else fst s.
Definition sum_over (os : list nat) (f : nat -> ext) : Qc := qsum (map (fun o => number (f o)) os).
(** the sum of the reported powers at a bus *)
Definition reported (flows : list power * list power) (b : nat) (imaginary : bool) (p : nat) : Qc :=
  (sum_over (load_gens_at topo b) (fun o => part_of imaginary (nth o (fst flows) no_power) p) + sum_over (sources_at topo b) (fun o => part_of imaginary (nth o (snd flows) no_power) p))%Qc.
End Spec.

(** ** Which measurements the estimation uses *)
Section Use.
Variable phases : nat.
Variable topo : topology.
Variable inp : input.
Definition voltage_measurements (b : nat) : list rand_var := pick zero_var (voltage_data inp) (voltage_sensors topo b).
Definition from_measurements (b : nat) : list decomposed := pick zero_dec (from_data inp) (from_sensors topo b).
Definition to_measurements (b : nat) : list decomposed := pick zero_dec (to_data inp) (to_sensors topo b).
(** the connected appliances of a bus *)
Definition connected_load_gens (b : nat) : list nat := filter (load_gen_status inp) (load_gens_at topo b).
Definition connected_sources (b : nat) : list nat := filter (source_status inp) (sources_at topo b).
(** the fused measurement of an appliance *)
Definition load_gen_value (i : bool) (p o : nat) : Qc := number (value (part i (combine_decomposed phases (load_gen_measurements topo inp o))) p).
Definition load_gen_variance (i : bool) (p o : nat) : Qc := number (variance (part i (combine_decomposed phases (load_gen_measurements topo inp o))) p).
Definition source_value (i : bool) (p o : nat) : Qc := number (value (part i (combine_decomposed phases (source_measurements topo inp o))) p).
Definition source_variance (i : bool) (p o : nat) : Qc := number (variance (part i (combine_decomposed phases (source_measurements topo inp o))) p).
(** the sum of the measurements of the connected appliances: values and variances add up *)
Definition appliance_sum (b : nat) (d : decomposed) : Prop := forall i p, p < phases ->
  value (part i d) p = Fin (qsum (map (load_gen_value i p) (connected_load_gens b)) + qsum (map (source_value i p) (connected_sources b)))%Qc /\
  variance (part i d) p = Fin (qsum (map (load_gen_variance i p) (connected_load_gens b)) + qsum (map (source_variance i p) (connected_sources b)))%Qc.
(** how far assumed powers are from the measured ones, in units of the standard deviation, squared *)
Definition deviation (b : nat) (i : bool) (p : nat) (x y : nat -> Qc) : Qc :=
  (qsum (map (fun o => (x o - load_gen_value i p o) * (x o - load_gen_value i p o) / load_gen_variance i p o) (connected_load_gens b)) +
   qsum (map (fun o => (y o - source_value i p o) * (y o - source_value i p o) / source_variance i p o) (connected_sources b)))%Qc.
(** a measurement used with its variance multiplied by [c] *)
Definition uses (c : Qc) (main : list decomposed) (k : Z) (d : decomposed) : Prop :=
  (0 <= k)%Z /\ exists e, nth_error main (Z.to_nat k) = Some e /\ forall i p, p < phases -> value (part i e) p = value (part i d) p /\ variance (part i e) p = emul (variance (part i d) p) (Fin c).
(** an object: disconnected, unmeasured, or used with the fused measurement of its sensors *)
Definition object_used (c : Qc) (main : list decomposed) (k : Z) (on : bool) (ds : list decomposed) : Prop :=
  (on = false -> k = disconnected) /\ (on = true -> ~ usable_dec phases ds -> k = unmeasured) /\ (on = true -> usable_dec phases ds -> uses c main k (combine_decomposed phases ds)).
(** the injection of a bus: what is measured directly, the sum of the appliances, or both *)
Definition injection_used (c : Qc) (main : list decomposed) (k : Z) (b : nat) : Prop :=
  let direct := bus_measurements topo inp b in
  (~ all_measured phases topo inp b -> ~ usable_dec phases direct -> k = unmeasured) /\
  (~ all_measured phases topo inp b -> usable_dec phases direct -> uses c main k (combine_decomposed phases direct)) /\
  (all_measured phases topo inp b -> ~ usable_dec phases direct \/ ~ connected topo inp b -> exists d, appliance_sum b d /\ uses c main k d) /\
  (all_measured phases topo inp b -> usable_dec phases direct -> connected topo inp b -> exists d, appliance_sum b d /\ uses c main k (combine_decomposed phases [combine_decomposed phases direct; d])).
(** the voltage of a bus: the fused phasors, or the fused magnitudes if an angle is missing *)
Definition magnitude_only (v : rand_var) : bool := forallb (fun p => isnan (value v (2 * p + 1))) (seq 0 phases).
Definition fused_voltage (cabs : ext -> ext -> ext) (b : nat) : rand_var :=
  if existsb magnitude_only (voltage_measurements b) then combine_magnitude cabs phases (voltage_measurements b) else combine (uniform_complex phases) (voltage_measurements b).
Definition voltage_used (cabs : ext -> ext -> ext) (c : Qc) (main : list rand_var) (k : Z) (b : nat) : Prop :=
  (~ usable (voltage_measurements b) 0 -> k = unmeasured) /\
  (usable (voltage_measurements b) 0 -> (0 <= k)%Z /\ exists e, nth_error main (Z.to_nat k) = Some e /\ value e = value (fused_voltage cabs b) /\ variance e 0 = emul (variance (fused_voltage cabs b) 0) (Fin c)).
Record measurements_used (cabs : ext -> ext -> ext) (c : Qc) (st : measured) : Prop := {
  mu_voltage : forall b, b < n_bus topo -> voltage_used cabs c (voltage_main st) (nth b (idx_voltage st) 0%Z) b;
  mu_injection : forall b, b < n_bus topo -> injection_used c (power_main st) (nth b (idx_injection st) 0%Z) b;
  mu_shunt : forall b o, b < n_bus topo -> In o (shunts_at topo b) -> object_used c (power_main st) (nth o (idx_shunt st) 0%Z) (shunt_status inp o) (shunt_measurements topo inp o);
  mu_from : forall b, b < n_branch topo -> object_used c (power_main st) (nth b (idx_from st) 0%Z) (branch_from topo b) (from_measurements b);
  mu_to : forall b, b < n_branch topo -> object_used c (power_main st) (nth b (idx_to st) 0%Z) (branch_to topo b) (to_measurements b)
}.
(** The remaining data: the variances of voltages and currents are positive, possibly infinite, and the branches have finite values. *)
Record well_formed_branches : Prop := {
  wf_voltage_data : forall b v, In v (voltage_measurements b) -> positive (variance v 0);
  wf_from_data : forall b d, In d (from_measurements b) -> valid_dec phases d;
  wf_to_data : forall b d, In d (to_measurements b) -> valid_dec phases d;
  wf_from_current : forall b c, In c (pick zero_current (from_current_data inp) (from_current_sensors topo b)) -> valid_dec phases (measurement c);
  wf_to_current : forall b c, In c (pick zero_current (to_current_data inp) (to_current_sensors topo b)) -> valid_dec phases (measurement c)
}.
End Use.
