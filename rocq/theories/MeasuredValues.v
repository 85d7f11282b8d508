(** Model of math_solver/measured_values.hpp: the measurements that the state estimation uses and the powers that it reports for loads, generators and sources.
    Simplifications: those of Statistics.v; [phases] is 1 or 3; vectors of the input are lists, a range of objects or sensors is the list of their numbers; the angle sums
    (mean_angle_shift_) and the currents conj(s / u) are left out; the counts of measurements are left out except that of global angle currents. Complex values
    are a pair of functions of the phase. *)
From Coq Require Import QArith Qcanon.
From Verif Require Import Common NatMap Ext Statistics.
Local Open Scope nat_scope.

(** 36-38 *)
Definition disconnected : Z := (-1)%Z.
Definition unmeasured : Z := (-2)%Z.
Definition undefined : Z := (-3)%Z.
(** calculation_parameters.hpp: CurrentSensorCalcParam *)
Record current : Type := mkCurrent { global_angle : bool; measurement : decomposed }.
(** calculation_parameters.hpp: MathModelTopology and StateEstimationInput, what is read here *)
Record topology : Type := mkTopo { n_bus : nat; n_branch : nat; n_shunt : nat; n_load_gen : nat; n_source : nat;
  shunts_at : nat -> list nat; load_gens_at : nat -> list nat; sources_at : nat -> list nat;
  voltage_sensors : nat -> list nat; bus_sensors : nat -> list nat; shunt_sensors : nat -> list nat; load_gen_sensors : nat -> list nat; source_sensors : nat -> list nat;
  from_sensors : nat -> list nat; to_sensors : nat -> list nat; from_current_sensors : nat -> list nat; to_current_sensors : nat -> list nat;
  branch_from : nat -> bool; branch_to : nat -> bool (* branch_bus_idx is not -1 *) }.
Record input : Type := mkInput { shunt_status : nat -> bool; load_gen_status : nat -> bool; source_status : nat -> bool;
  voltage_data : list rand_var; bus_data : list decomposed; shunt_data : list decomposed; load_gen_data : list decomposed; source_data : list decomposed;
  from_data : list decomposed; to_data : list decomposed; from_current_data : list current; to_current_data : list current }.
(** 193-230 *)
Record measured : Type := mkMeasured { voltage_main : list rand_var; power_main : list decomposed; current_main : list current; extra : list decomposed; appliance_injection : list decomposed;
  idx_voltage : list Z; idx_injection : list Z; n_unmeasured : list nat; idx_from : list Z; idx_to : list Z; idx_shunt : list Z; idx_load_gen : list Z; idx_source : list Z;
  idx_from_current : list Z; idx_to_current : list Z }.

Section Measured.
Variable phases : nat.
Variable cabs : ext -> ext -> ext.
Variable topo : topology.
Variable inp : input.
Definition zero_var : rand_var := mkVar zeros zeros.
Definition zero_dec : decomposed := mkDec zero_var zero_var.
Definition pick {A} (d : A) (data : list A) (sensors : list nat) : list A := map (fun k => nth k data d) sensors.
Definition any_inf (f : nat -> ext) : bool := existsb (fun p => isinf (f p)) (seq 0 phases).
Definition any_zero (f : nat -> ext) : bool := existsb (fun p => iszero (f p)) (seq 0 phases).
Definition uncertain (d : decomposed) : bool := any_inf (variance (re d)) || any_inf (variance (im d)).

(** 52-71: the vectors before the loops *)
Definition empty : measured := mkMeasured [] [] [] [] (repeat zero_dec (n_bus topo)) (repeat 0%Z (n_bus topo)) (repeat undefined (n_bus topo)) (repeat 0 (n_bus topo))
  (repeat 0%Z (n_branch topo)) (repeat 0%Z (n_branch topo)) (repeat 0%Z (n_shunt topo)) (repeat 0%Z (n_load_gen topo)) (repeat 0%Z (n_source topo)) (repeat 0%Z (n_branch topo)) (repeat 0%Z (n_branch topo)).

(** 284-315, without the angle *)
Definition process_voltage (st : measured) (bus : nat) : measured :=
  let sensors := pick zero_var (voltage_data inp) (voltage_sensors topo bus) in
  let aggregated := if existsb (fun m => forallb (fun p => isnan (value m (2 * p + 1))) (seq 0 phases)) sensors
                    then combine_magnitude cabs phases sensors else combine (uniform_complex phases) sensors in
  if isinf (variance aggregated 0)
  then mkMeasured (voltage_main st) (power_main st) (current_main st) (extra st) (appliance_injection st) (upd bus unmeasured (idx_voltage st)) (idx_injection st) (n_unmeasured st) (idx_from st) (idx_to st)
         (idx_shunt st) (idx_load_gen st) (idx_source st) (idx_from_current st) (idx_to_current st)
  else mkMeasured (voltage_main st ++ [aggregated]) (power_main st) (current_main st) (extra st) (appliance_injection st) (upd bus (Z.of_nat (length (voltage_main st))) (idx_voltage st)) (idx_injection st)
         (n_unmeasured st) (idx_from st) (idx_to st) (idx_shunt st) (idx_load_gen st) (idx_source st) (idx_from_current st) (idx_to_current st).

(** 511-543, for power *)
Definition process_one (on : bool) (sensors : list decomposed) (result : list decomposed) : Z * list decomposed :=
  if negb on then (disconnected, result)
  else match sensors with
       | [] => (unmeasured, result)
       | _ => let c := combine_decomposed phases sensors in if uncertain c then (unmeasured, result) else (Z.of_nat (length result), result ++ [c])
       end.
(** 492-500 *)
Definition process_objects (objects : list nat) (sensors : nat -> list nat) (status : nat -> bool) (data : list decomposed) (st : list decomposed * list Z) : list decomposed * list Z :=
  fold_left (fun st o => let '(k, result) := process_one (status o) (pick zero_dec data (sensors o)) (fst st) in (result, upd o k (snd st))) objects st.
(** 384-404 *)
Definition plus (f g : nat -> ext) : nat -> ext := fun p => eadd (f p) (g p).
Definition add_appliance (ex : list decomposed) (acc : decomposed * nat) (k : Z) : decomposed * nat :=
  if (k =? unmeasured)%Z then (fst acc, S (snd acc))
  else if (k =? disconnected)%Z then acc
  else let m := nth (Z.to_nat k) ex zero_dec in
       if uncertain m then (fst acc, S (snd acc))
       else (mkDec (mkVar (plus (value (re (fst acc))) (value (re m))) (plus (variance (re (fst acc))) (variance (re m))))
                   (mkVar (plus (value (im (fst acc))) (value (im m))) (plus (variance (im (fst acc))) (variance (im m)))), snd acc).
(** 332-379 *)
Definition combine_appliances (st : measured) (bus : nat) : measured :=
  let acc := fold_left (add_appliance (extra st)) (map (fun o => nth o (idx_load_gen st) 0%Z) (load_gens_at topo bus)) (zero_dec, 0) in
  let '(app, n) := fold_left (add_appliance (extra st)) (map (fun o => nth o (idx_source st) 0%Z) (sources_at topo bus)) acc in
  let direct := combine_decomposed phases (pick zero_dec (bus_data inp) (bus_sensors topo bus)) in
  let at_end := Z.of_nat (length (power_main st)) in
  let '(k, main) := if 0 <? n then if uncertain direct then (unmeasured, power_main st) else (at_end, power_main st ++ [direct])
                    else if uncertain direct || any_zero (variance (re app)) || any_zero (variance (im app)) then (at_end, power_main st ++ [app])
                    else (at_end, power_main st ++ [combine_decomposed phases [direct; app]]) in
  mkMeasured (voltage_main st) main (current_main st) (extra st) (upd bus app (appliance_injection st)) (idx_voltage st) (upd bus k (idx_injection st)) (upd bus n (n_unmeasured st)) (idx_from st) (idx_to st)
    (idx_shunt st) (idx_load_gen st) (idx_source st) (idx_from_current st) (idx_to_current st).
(** 317-330 *)
Definition process_appliances (st : measured) (bus : nat) : measured :=
  let '(main, shunts) := process_objects (shunts_at topo bus) (shunt_sensors topo) (shunt_status inp) (shunt_data inp) (power_main st, idx_shunt st) in
  let '(ex, lgs) := process_objects (load_gens_at topo bus) (load_gen_sensors topo) (load_gen_status inp) (load_gen_data inp) (extra st, idx_load_gen st) in
  let '(ex, srcs) := process_objects (sources_at topo bus) (source_sensors topo) (source_status inp) (source_data inp) (ex, idx_source st) in
  combine_appliances (mkMeasured (voltage_main st) main (current_main st) ex (appliance_injection st) (idx_voltage st) (idx_injection st) (n_unmeasured st) (idx_from st) (idx_to st) shunts lgs srcs
    (idx_from_current st) (idx_to_current st)) bus.

(** 468-485, 511-543, for currents; None: ConflictingAngleMeasurementType *)
Definition zero_current : current := mkCurrent false zero_dec.
Definition combine_currents (cs : list current) : option current :=
  let kind := match cs with [] => false | c :: _ => global_angle c end in
  if existsb (fun c => negb (Bool.eqb (global_angle c) kind)) cs then None else Some (mkCurrent kind (combine_decomposed phases (map measurement cs))).
Definition process_one_current (on : bool) (sensors : list current) (result : list current) : option (Z * list current) :=
  if negb on then Some (disconnected, result)
  else match sensors with
       | [] => Some (unmeasured, result)
       | _ => match combine_currents sensors with None => None | Some c => Some (Z.of_nat (length result), result ++ [c]) end
       end.
(** 406-447 *)
Definition process_branch (st : option measured) (b : nat) : option measured :=
  match st with
  | None => None
  | Some st =>
    let '(kf, main) := process_one (branch_from topo b) (pick zero_dec (from_data inp) (from_sensors topo b)) (power_main st) in
    let '(kt, main) := process_one (branch_to topo b) (pick zero_dec (to_data inp) (to_sensors topo b)) main in
    match process_one_current (branch_from topo b) (pick zero_current (from_current_data inp) (from_current_sensors topo b)) (current_main st) with
    | None => None
    | Some (cf, cmain) =>
      match process_one_current (branch_to topo b) (pick zero_current (to_current_data inp) (to_current_sensors topo b)) cmain with
      | None => None
      | Some (ct, cmain) => Some (mkMeasured (voltage_main st) main cmain (extra st) (appliance_injection st) (idx_voltage st) (idx_injection st) (n_unmeasured st) (upd b kf (idx_from st)) (upd b kt (idx_to st))
                                    (idx_shunt st) (idx_load_gen st) (idx_source st) (upd b cf (idx_from_current st)) (upd b ct (idx_to_current st)))
      end
    end
  end.

(** 545-594 *)
Definition unconstrained_min (m v : ext) : ext := if iszero v then m else emin m v.
Definition total_variance (d : decomposed) : list ext := map (fun p => eadd (variance (re d) p) (variance (im d) p)) (seq 0 phases).
Definition min_variance (st : measured) : ext :=
  fold_left unconstrained_min (map (fun v => variance v 0) (voltage_main st) ++ flat_map total_variance (power_main st) ++ flat_map (fun c => total_variance (measurement c)) (current_main st)) PInf.
Definition scale_var (c : ext) (v : rand_var) : rand_var := mkVar (value v) (fun p => emul (variance v p) c).
Definition scale_dec (c : ext) (d : decomposed) : decomposed := mkDec (scale_var c (re d)) (scale_var c (im d)).
Definition normalize (st : measured) : measured :=
  let c := ediv (Fin 1%Qc) (min_variance st) in
  mkMeasured (map (scale_var c) (voltage_main st)) (map (scale_dec c) (power_main st)) (map (fun x => mkCurrent (global_angle x) (scale_dec c (measurement x))) (current_main st)) (extra st) (appliance_injection st)
    (idx_voltage st) (idx_injection st) (n_unmeasured st) (idx_from st) (idx_to st) (idx_shunt st) (idx_load_gen st) (idx_source st) (idx_from_current st) (idx_to_current st).
(** 52-77 *)
Definition process_buses : measured := fold_left process_appliances (seq 0 (n_bus topo)) (fold_left process_voltage (seq 0 (n_bus topo)) empty).
Definition construct : option measured := option_map normalize (fold_left process_branch (seq 0 (n_branch topo)) (Some process_buses)).

(** 596-616; a power is a pair of functions of the phase *)
Definition power : Type := (nat -> ext) * (nat -> ext).
Definition no_power : power := (zeros, zeros).
Definition value_of (d : decomposed) : power := (value (re d), value (im d)).
Definition residual (n : nat) (app : decomposed) (s : power) : power :=
  (fun p => ediv (esub (fst s p) (value (re app) p)) (Fin (Q2Qc (inject_Z (Z.of_nat n)))), fun p => ediv (esub (snd s p) (value (im app) p)) (Fin (Q2Qc (inject_Z (Z.of_nat n))))).
Definition non_over (ex : list decomposed) (r : power) (idx : list Z) (flow : list power) (o : nat) : list power :=
  let k := nth o idx 0%Z in
  if (0 <=? k)%Z then upd o (value_of (nth (Z.to_nat k) ex zero_dec)) flow else if (k =? unmeasured)%Z then upd o r flow else flow.
(** 618-647 *)
Definition multiplier (app : decomposed) (s : power) : power :=
  (fun p => ediv (esub (value (re app) p) (fst s p)) (variance (re app) p), fun p => ediv (esub (value (im app) p) (snd s p)) (variance (im app) p)).
Definition adjusted (mu : power) (d : decomposed) : power :=
  (fun p => esub (value (re d) p) (emul (variance (re d) p) (fst mu p)), fun p => esub (value (im d) p) (emul (variance (im d) p) (snd mu p))).
Definition over (ex : list decomposed) (mu : power) (idx : list Z) (flow : list power) (o : nat) : list power :=
  let k := nth o idx 0%Z in if (0 <=? k)%Z then upd o (adjusted mu (nth (Z.to_nat k) ex zero_dec)) flow else flow.
(** 126-156, the powers *)
Definition at_bus (st : measured) (s : nat -> power) (flows : list power * list power) (bus : nat) : list power * list power :=
  let app := nth bus (appliance_injection st) zero_dec in
  let n := nth bus (n_unmeasured st) 0 in
  if 0 <? n
  then let r := residual n app (s bus) in
       (fold_left (non_over (extra st) r (idx_load_gen st)) (load_gens_at topo bus) (fst flows), fold_left (non_over (extra st) r (idx_source st)) (sources_at topo bus) (snd flows))
  else let mu := multiplier app (s bus) in
       (fold_left (over (extra st) mu (idx_load_gen st)) (load_gens_at topo bus) (fst flows), fold_left (over (extra st) mu (idx_source st)) (sources_at topo bus) (snd flows)).
Definition load_gen_source (st : measured) (s : nat -> power) : list power * list power :=
  fold_left (at_bus st s) (seq 0 (n_bus topo)) (repeat no_power (n_load_gen topo), repeat no_power (n_source topo)).
End Measured.
