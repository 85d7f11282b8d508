(** Model of main_core/calculation_input_preparation.hpp: how the parameters of the components become the input of the solvers. A field of
    the input structures is modelled as one vector per math model. Parameters of components are opaque functions of the component; an
    exception thrown while computing one is not modelled. None is undefined behaviour (write or read out of range) or a thrown exception. *)
From Verif Require Import Common NatMap SparseOrdering Container Topology TopologyProps Coupling Registration Output.

Section CalcInput.
Context {P LT : Type}.
Variable c : mcontainer.
Variable s : model_state (P := P) (LT := LT).
Notation n_solvers := (length (models (st_search s))).

Definition set_at {A} (vs : list (list A)) (g p : nat) (v : A) : option (list (list A)) :=
  bindO (nth_error vs g) (fun l => if p <? length l then Some (upd g (upd p v l) vs) else None).
(** 109-125; [n]: size of the coupling vector [place]; 127-155 are the same loop with another parameter *)
Definition prepare_input {A} (kind : gettable) (n : nat) (place : nat -> Coupling.idx2d) (include : nat -> bool) (param : centry -> option A)
    (vs : list (list A)) : option (list (list A)) :=
  foldM_opt (fun vs i =>
    if include i then
      match place i with
      | None => Some vs
      | Some (g, p) => bindO (get_item_by_seq (is_base kind) c i) (fun e => bindO (param e) (set_at vs g p))
      end
    else Some vs) (seq 0 n) vs.
Definition include_all (_ : nat) : bool := true.
(** resize of the vectors of all math models *)
Definition resized {A} (size : nat -> nat) (d : A) : list (list A) := map (fun g => repeat d (size g)) (seq 0 n_solvers).

(** calculation_preparation.hpp 218-222: the part of check_state_validity that matters here (the rest: C34) *)
Definition regulators_allowed : bool :=
  if 0 <? size_of (is_base (GExact VoltageRegulator)) c then negb (0 <? size_of (is_base (GExact TransformerTapRegulator)) c) else true.

(** 158-187 *)
Record pf_input (A B C D : Type) : Type := mkPf { pf_source : list (list A); pf_injection : list (list B); pf_regulator : list (list C); pf_status : list (list D) }.
Arguments mkPf {A B C D}. Arguments pf_source {A B C D}. Arguments pf_injection {A B C D}. Arguments pf_regulator {A B C D}. Arguments pf_status {A B C D}.
Section PowerFlow.
Context {A B C D : Type} (d_source : A) (d_injection : B) (d_regulator : C) (d_status : D).
Variable source_param : centry -> A.
Variable injection_param : centry -> B.
Variable regulator_param : centry -> C.
Variable status : centry -> D.
Definition prepare_power_flow_input : option (pf_input A B C D) :=
  let cp := st_coupled s in
  let n_lg g := element_size (fst (load_gens cp) g) in
  bindO (prepare_input (GExact Source) (length (source_node_idx (st_topo s))) (snd (sources cp)) include_all (fun e => Some (source_param e))
          (resized (fun g => element_size (fst (sources cp) g)) d_source)) (fun v1 =>
  bindO (prepare_input GGenericLoadGen (length (load_gen_node (st_objects s))) (snd (load_gens cp)) include_all (fun e => Some (injection_param e))
          (resized n_lg d_injection)) (fun v2 =>
  bindO (prepare_input (GExact VoltageRegulator) (length (regulators (st_objects s))) (snd (voltage_regulators cp)) include_all (fun e => Some (regulator_param e))
          (resized (fun g => element_size (fst (voltage_regulators cp) g)) d_regulator)) (fun v3 =>
  bindO (prepare_input GGenericLoadGen (length (load_gen_node (st_objects s))) (snd (load_gens cp)) include_all (fun e => Some (status e))
          (resized n_lg d_status)) (fun v4 => Some (mkPf v1 v2 v3 v4))))).
End PowerFlow.

(** 189-275 *)
Record se_input (S V W I : Type) : Type := mkSe {
  se_shunt_status : list (list S);
  se_load_gen_status : list (list S);
  se_source_status : list (list S);
  se_voltage : list (list V);
  se_source_power : list (list W);
  se_load_gen_power : list (list W);
  se_shunt_power : list (list W);
  se_branch_from_power : list (list W);
  se_branch_to_power : list (list W);
  se_bus_injection : list (list W);
  se_branch_from_current : list (list I);
  se_branch_to_current : list (list I) }.
Arguments mkSe {S V W I}. Arguments se_shunt_status {S V W I}. Arguments se_load_gen_status {S V W I}. Arguments se_source_status {S V W I}.
Arguments se_voltage {S V W I}. Arguments se_source_power {S V W I}. Arguments se_load_gen_power {S V W I}. Arguments se_shunt_power {S V W I}.
Arguments se_branch_from_power {S V W I}. Arguments se_branch_to_power {S V W I}. Arguments se_bus_injection {S V W I}.
Arguments se_branch_from_current {S V W I}. Arguments se_branch_to_current {S V W I}.
Section StateEstimation.
Context {S V W I : Type} (d_s : S) (d_v : V) (d_w : W) (d_i : I).
Variable status : centry -> S.
Variable voltage_param : centry -> V.
Variable power_param : centry -> W.
Variable current_param : centry -> I.
Definition terminal_is (l : list (nat * Coupling.terminal)) (f : Coupling.terminal -> bool) (i : nat) : bool :=
  match nth_error l i with Some (_, ty) => f ty | None => false end.
Definition prepare_state_estimation_input : option (se_input S V W I) :=
  let cp := st_coupled s in let o := st_objects s in
  let power f gr := prepare_input GGenericPowerSensor (length (power_sensors o)) (power_sensor_coupling cp) (terminal_is (power_sensors o) f)
                      (fun e => Some (power_param e)) (resized (fun g => element_size (gr g)) d_w) in
  let current f gr := prepare_input GGenericCurrentSensor (length (current_sensors o)) (current_sensor_coupling cp) (terminal_is (current_sensors o) f)
                      (fun e => Some (current_param e)) (resized (fun g => element_size (gr g)) d_i) in
  let stat kind n (x : (nat -> grouped) * (nat -> Coupling.idx2d)) :=
    prepare_input kind n (snd x) include_all (fun e => Some (status e)) (resized (fun g => element_size (fst x g)) d_s) in
  bindO (stat (GExact Shunt) (length (shunt_node o)) (shunts cp)) (fun v1 =>
  bindO (stat GGenericLoadGen (length (load_gen_node o)) (load_gens cp)) (fun v2 =>
  bindO (stat (GExact Source) (length (source_node_idx (st_topo s))) (sources cp)) (fun v3 =>
  bindO (prepare_input GGenericVoltageSensor (length (voltage_sensor_node o)) (snd (voltage_sensors cp)) include_all (fun e => Some (voltage_param e))
          (resized (fun g => element_size (fst (voltage_sensors cp) g)) d_v)) (fun v4 =>
  bindO (power (fun ty => match ty with T_source => true | _ => false end) (sensors_source cp)) (fun v5 =>
  bindO (power (fun ty => match ty with T_load | T_generator => true | _ => false end) (sensors_load_gen cp)) (fun v6 =>
  bindO (power (fun ty => match ty with T_shunt => true | _ => false end) (sensors_shunt cp)) (fun v7 =>
  bindO (power (fun ty => match ty with T_branch_from | T_branch3_1 | T_branch3_2 | T_branch3_3 => true | _ => false end) (sensors_branch_from cp)) (fun v8 =>
  bindO (power (fun ty => match ty with T_branch_to => true | _ => false end) (sensors_branch_to cp)) (fun v9 =>
  bindO (power (fun ty => match ty with T_node => true | _ => false end) (sensors_bus cp)) (fun v10 =>
  bindO (current (fun ty => match ty with T_branch_from | T_branch3_1 | T_branch3_2 | T_branch3_3 => true | _ => false end) (current_from cp)) (fun v11 =>
  bindO (current (fun ty => match ty with T_branch_to => true | _ => false end) (current_to cp)) (fun v12 =>
    Some (mkSe v1 v2 v3 v4 v5 v6 v7 v8 v9 v10 v11 v12))))))))))))).
End StateEstimation.

(** 277-337 *)
Section ShortCircuit.
Variable sort : list (nat * nat) -> list (nat * nat).
Variable criterion : nat -> nat -> bool.
Context {F Q : Type} (d_f : F) (d_q : Q).          (* d_f: the parameter of a fault that is not in use *)
Variable fault_on : centry -> bool.
Variable fault_param : centry -> centry -> F.       (* the fault and its node *)
Variable source_param : centry -> centry -> Q.
Variable unused : F -> bool.                        (* 327-329 *)
Definition node_item (x : Z) : option centry := bindO (seq_of_id (GExact Node) c x) (get_item_by_seq (is_base (GExact Node)) c).
(** 285-297: the nodes of the active faults. The value 0 of an inactive one is not used. *)
Definition fault_nodes : option (list nat) :=
  bindO (citer (GExact Fault) c) (mapO (fun e => if fault_on e then match e_in e with IFault o => seq_of_id (GExact Node) c o | _ => None end else Some 0)).
Definition fault_is_on (i : nat) : bool := match get_item_by_seq (is_base (GExact Fault)) c i with Some e => fault_on e | None => false end.
(** 280-309: the same algorithm as for the objects in topology.hpp 509-561, with dense vectors *)
Definition fault_places (nodes : list nat) : (nat -> grouped) * (nat -> Coupling.idx2d) :=
  couple_objects sort criterion false n_solvers (fun g => match nth_error (models (st_search s)) g with Some m => n_bus m | None => 0 end)
    (find_single nodes (bus (st_search s))) fault_is_on (length nodes) (fun _ => None).
(** 325-334 *)
Fixpoint truncate (l : list F) : list F := match l with [] => [] | x :: l' => if unused x then [] else x :: truncate l' end.
Record short_input : Type := mkShort {
  si_fault_buses : nat -> grouped;
  si_faults : list (list F);
  si_source : list (list Q);
  si_places : list Coupling.idx2d }.                 (* comp_coup.fault *)
Definition prepare_short_circuit_input : option short_input :=
  bindO fault_nodes (fun nodes =>
    let (gr, cp) := fault_places nodes in
    let n := size_of (is_base (GExact Fault)) c in
    bindO (prepare_input (GExact Fault) n cp include_all
            (fun e => match e_in e with IFault o => option_map (fault_param e) (node_item o) | _ => None end) (resized (fun _ => n) d_f)) (fun v1 =>
    bindO (prepare_input (GExact Source) (length (source_node_idx (st_topo s))) (snd (sources (st_coupled s))) include_all
            (fun e => match e_in e with IAppliance o => option_map (source_param e) (node_item o) | _ => None end)
            (resized (fun g => element_size (fst (sources (st_coupled s)) g)) d_q)) (fun v2 =>
      Some (mkShort gr (map truncate v1) v2 (map cp (seq 0 n)))))).
End ShortCircuit.
End CalcInput.
Arguments pf_input : clear implicits. Arguments se_input : clear implicits. Arguments short_input : clear implicits.
