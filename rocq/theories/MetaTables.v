(** The attribute tables, written by tools/gen_metatables.py from the generated headers of the repository. *)
From Verif Require Import Common MetaData.
From Coq Require Import String.
Local Open Scope string_scope.

(** auxiliary/input.hpp 1-559: the structs, each with its members in order. *)
(** input.hpp 16-18 *)
Definition BaseInput : list field :=
  [mkField "id" FInt32 DNaID].
(** input.hpp 20-27 *)
Definition NodeInput : list field :=
  [mkField "id" FInt32 DNaID;
   mkField "u_rated" FDouble DNan].
(** input.hpp 29-39 *)
Definition BranchInput : list field :=
  [mkField "id" FInt32 DNaID;
   mkField "from_node" FInt32 DNaID;
   mkField "to_node" FInt32 DNaID;
   mkField "from_status" FInt8 DNaIntS;
   mkField "to_status" FInt8 DNaIntS].
(** input.hpp 41-53 *)
Definition Branch3Input : list field :=
  [mkField "id" FInt32 DNaID;
   mkField "node_1" FInt32 DNaID;
   mkField "node_2" FInt32 DNaID;
   mkField "node_3" FInt32 DNaID;
   mkField "status_1" FInt8 DNaIntS;
   mkField "status_2" FInt8 DNaIntS;
   mkField "status_3" FInt8 DNaIntS].
(** input.hpp 55-62 *)
Definition SensorInput : list field :=
  [mkField "id" FInt32 DNaID;
   mkField "measured_object" FInt32 DNaID].
(** input.hpp 64-72 *)
Definition ApplianceInput : list field :=
  [mkField "id" FInt32 DNaID;
   mkField "node" FInt32 DNaID;
   mkField "status" FInt8 DNaIntS].
(** input.hpp 74-97 *)
Definition LineInput : list field :=
  [mkField "id" FInt32 DNaID;
   mkField "from_node" FInt32 DNaID;
   mkField "to_node" FInt32 DNaID;
   mkField "from_status" FInt8 DNaIntS;
   mkField "to_status" FInt8 DNaIntS;
   mkField "r1" FDouble DNan;
   mkField "x1" FDouble DNan;
   mkField "c1" FDouble DNan;
   mkField "tan1" FDouble DNan;
   mkField "r0" FDouble DNan;
   mkField "x0" FDouble DNan;
   mkField "c0" FDouble DNan;
   mkField "tan0" FDouble DNan;
   mkField "i_n" FDouble DNan].
(** input.hpp 99-142 *)
Definition AsymLineInput : list field :=
  [mkField "id" FInt32 DNaID;
   mkField "from_node" FInt32 DNaID;
   mkField "to_node" FInt32 DNaID;
   mkField "from_status" FInt8 DNaIntS;
   mkField "to_status" FInt8 DNaIntS;
   mkField "r_aa" FDouble DNan;
   mkField "r_ba" FDouble DNan;
   mkField "r_bb" FDouble DNan;
   mkField "r_ca" FDouble DNan;
   mkField "r_cb" FDouble DNan;
   mkField "r_cc" FDouble DNan;
   mkField "r_na" FDouble DNan;
   mkField "r_nb" FDouble DNan;
   mkField "r_nc" FDouble DNan;
   mkField "r_nn" FDouble DNan;
   mkField "x_aa" FDouble DNan;
   mkField "x_ba" FDouble DNan;
   mkField "x_bb" FDouble DNan;
   mkField "x_ca" FDouble DNan;
   mkField "x_cb" FDouble DNan;
   mkField "x_cc" FDouble DNan;
   mkField "x_na" FDouble DNan;
   mkField "x_nb" FDouble DNan;
   mkField "x_nc" FDouble DNan;
   mkField "x_nn" FDouble DNan;
   mkField "c_aa" FDouble DNan;
   mkField "c_ba" FDouble DNan;
   mkField "c_bb" FDouble DNan;
   mkField "c_ca" FDouble DNan;
   mkField "c_cb" FDouble DNan;
   mkField "c_cc" FDouble DNan;
   mkField "c0" FDouble DNan;
   mkField "c1" FDouble DNan;
   mkField "i_n" FDouble DNan].
(** input.hpp 144-165 *)
Definition GenericBranchInput : list field :=
  [mkField "id" FInt32 DNaID;
   mkField "from_node" FInt32 DNaID;
   mkField "to_node" FInt32 DNaID;
   mkField "from_status" FInt8 DNaIntS;
   mkField "to_status" FInt8 DNaIntS;
   mkField "r1" FDouble DNan;
   mkField "x1" FDouble DNan;
   mkField "g1" FDouble DNan;
   mkField "b1" FDouble DNan;
   mkField "k" FDouble DNan;
   mkField "theta" FDouble DNan;
   mkField "sn" FDouble DNan].
(** input.hpp 167-181 *)
Definition LinkInput : list field :=
  [mkField "id" FInt32 DNaID;
   mkField "from_node" FInt32 DNaID;
   mkField "to_node" FInt32 DNaID;
   mkField "from_status" FInt8 DNaIntS;
   mkField "to_status" FInt8 DNaIntS].
(** input.hpp 183-223 *)
Definition TransformerInput : list field :=
  [mkField "id" FInt32 DNaID;
   mkField "from_node" FInt32 DNaID;
   mkField "to_node" FInt32 DNaID;
   mkField "from_status" FInt8 DNaIntS;
   mkField "to_status" FInt8 DNaIntS;
   mkField "u1" FDouble DNan;
   mkField "u2" FDouble DNan;
   mkField "sn" FDouble DNan;
   mkField "uk" FDouble DNan;
   mkField "pk" FDouble DNan;
   mkField "i0" FDouble DNan;
   mkField "p0" FDouble DNan;
   mkField "i0_zero_sequence" FDouble DNan;
   mkField "p0_zero_sequence" FDouble DNan;
   mkField "winding_from" FInt8 DNaIntS;
   mkField "winding_to" FInt8 DNaIntS;
   mkField "clock" FInt8 DNaIntS;
   mkField "tap_side" FInt8 DNaIntS;
   mkField "tap_pos" FInt8 DNaIntS;
   mkField "tap_min" FInt8 DNaIntS;
   mkField "tap_max" FInt8 DNaIntS;
   mkField "tap_nom" FInt8 DNaIntS;
   mkField "tap_size" FDouble DNan;
   mkField "uk_min" FDouble DNan;
   mkField "uk_max" FDouble DNan;
   mkField "pk_min" FDouble DNan;
   mkField "pk_max" FDouble DNan;
   mkField "r_grounding_from" FDouble DNan;
   mkField "x_grounding_from" FDouble DNan;
   mkField "r_grounding_to" FDouble DNan;
   mkField "x_grounding_to" FDouble DNan].
(** input.hpp 225-284 *)
Definition ThreeWindingTransformerInput : list field :=
  [mkField "id" FInt32 DNaID;
   mkField "node_1" FInt32 DNaID;
   mkField "node_2" FInt32 DNaID;
   mkField "node_3" FInt32 DNaID;
   mkField "status_1" FInt8 DNaIntS;
   mkField "status_2" FInt8 DNaIntS;
   mkField "status_3" FInt8 DNaIntS;
   mkField "u1" FDouble DNan;
   mkField "u2" FDouble DNan;
   mkField "u3" FDouble DNan;
   mkField "sn_1" FDouble DNan;
   mkField "sn_2" FDouble DNan;
   mkField "sn_3" FDouble DNan;
   mkField "uk_12" FDouble DNan;
   mkField "uk_13" FDouble DNan;
   mkField "uk_23" FDouble DNan;
   mkField "pk_12" FDouble DNan;
   mkField "pk_13" FDouble DNan;
   mkField "pk_23" FDouble DNan;
   mkField "i0" FDouble DNan;
   mkField "p0" FDouble DNan;
   mkField "winding_1" FInt8 DNaIntS;
   mkField "winding_2" FInt8 DNaIntS;
   mkField "winding_3" FInt8 DNaIntS;
   mkField "clock_12" FInt8 DNaIntS;
   mkField "clock_13" FInt8 DNaIntS;
   mkField "tap_side" FInt8 DNaIntS;
   mkField "tap_pos" FInt8 DNaIntS;
   mkField "tap_min" FInt8 DNaIntS;
   mkField "tap_max" FInt8 DNaIntS;
   mkField "tap_nom" FInt8 DNaIntS;
   mkField "tap_size" FDouble DNan;
   mkField "uk_12_min" FDouble DNan;
   mkField "uk_12_max" FDouble DNan;
   mkField "uk_13_min" FDouble DNan;
   mkField "uk_13_max" FDouble DNan;
   mkField "uk_23_min" FDouble DNan;
   mkField "uk_23_max" FDouble DNan;
   mkField "pk_12_min" FDouble DNan;
   mkField "pk_12_max" FDouble DNan;
   mkField "pk_13_min" FDouble DNan;
   mkField "pk_13_max" FDouble DNan;
   mkField "pk_23_min" FDouble DNan;
   mkField "pk_23_max" FDouble DNan;
   mkField "r_grounding_1" FDouble DNan;
   mkField "x_grounding_1" FDouble DNan;
   mkField "r_grounding_2" FDouble DNan;
   mkField "x_grounding_2" FDouble DNan;
   mkField "r_grounding_3" FDouble DNan;
   mkField "x_grounding_3" FDouble DNan].
(** input.hpp 286-299 *)
Definition GenericLoadGenInput : list field :=
  [mkField "id" FInt32 DNaID;
   mkField "node" FInt32 DNaID;
   mkField "status" FInt8 DNaIntS;
   mkField "type" FInt8 DNaIntS].
(** input.hpp 302-323 *)
Definition LoadGenInput (sym : bool) : list field :=
  [mkField "id" FInt32 DNaID;
   mkField "node" FInt32 DNaID;
   mkField "status" FInt8 DNaIntS;
   mkField "type" FInt8 DNaIntS;
   mkField "p_specified" (FReal sym) DNan;
   mkField "q_specified" (FReal sym) DNan].
(** input.hpp 328-344 *)
Definition ShuntInput : list field :=
  [mkField "id" FInt32 DNaID;
   mkField "node" FInt32 DNaID;
   mkField "status" FInt8 DNaIntS;
   mkField "g1" FDouble DNan;
   mkField "b1" FDouble DNan;
   mkField "g0" FDouble DNan;
   mkField "b0" FDouble DNan].
(** input.hpp 346-363 *)
Definition SourceInput : list field :=
  [mkField "id" FInt32 DNaID;
   mkField "node" FInt32 DNaID;
   mkField "status" FInt8 DNaIntS;
   mkField "u_ref" FDouble DNan;
   mkField "u_ref_angle" FDouble DNan;
   mkField "sk" FDouble DNan;
   mkField "rx_ratio" FDouble DNan;
   mkField "z01_ratio" FDouble DNan].
(** input.hpp 365-377 *)
Definition GenericVoltageSensorInput : list field :=
  [mkField "id" FInt32 DNaID;
   mkField "measured_object" FInt32 DNaID;
   mkField "u_sigma" FDouble DNan].
(** input.hpp 380-400 *)
Definition VoltageSensorInput (sym : bool) : list field :=
  [mkField "id" FInt32 DNaID;
   mkField "measured_object" FInt32 DNaID;
   mkField "u_sigma" FDouble DNan;
   mkField "u_measured" (FReal sym) DNan;
   mkField "u_angle_measured" (FReal sym) DNan].
(** input.hpp 405-418 *)
Definition GenericPowerSensorInput : list field :=
  [mkField "id" FInt32 DNaID;
   mkField "measured_object" FInt32 DNaID;
   mkField "measured_terminal_type" FInt8 DNaIntS;
   mkField "power_sigma" FDouble DNan].
(** input.hpp 421-444 *)
Definition PowerSensorInput (sym : bool) : list field :=
  [mkField "id" FInt32 DNaID;
   mkField "measured_object" FInt32 DNaID;
   mkField "measured_terminal_type" FInt8 DNaIntS;
   mkField "power_sigma" FDouble DNan;
   mkField "p_measured" (FReal sym) DNan;
   mkField "q_measured" (FReal sym) DNan;
   mkField "p_sigma" (FReal sym) DNan;
   mkField "q_sigma" (FReal sym) DNan].
(** input.hpp 449-461 *)
Definition FaultInput : list field :=
  [mkField "id" FInt32 DNaID;
   mkField "status" FInt8 DNaIntS;
   mkField "fault_type" FInt8 DNaIntS;
   mkField "fault_phase" FInt8 DNaIntS;
   mkField "fault_object" FInt32 DNaID;
   mkField "r_f" FDouble DNan;
   mkField "x_f" FDouble DNan].
(** input.hpp 463-471 *)
Definition RegulatorInput : list field :=
  [mkField "id" FInt32 DNaID;
   mkField "regulated_object" FInt32 DNaID;
   mkField "status" FInt8 DNaIntS].
(** input.hpp 473-490 *)
Definition TransformerTapRegulatorInput : list field :=
  [mkField "id" FInt32 DNaID;
   mkField "regulated_object" FInt32 DNaID;
   mkField "status" FInt8 DNaIntS;
   mkField "control_side" FInt8 DNaIntS;
   mkField "u_set" FDouble DNan;
   mkField "u_band" FDouble DNan;
   mkField "line_drop_compensation_r" FDouble DNan;
   mkField "line_drop_compensation_x" FDouble DNan].
(** input.hpp 492-507 *)
Definition VoltageRegulatorInput : list field :=
  [mkField "id" FInt32 DNaID;
   mkField "regulated_object" FInt32 DNaID;
   mkField "status" FInt8 DNaIntS;
   mkField "u_ref" FDouble DNan;
   mkField "q_min" FDouble DNan;
   mkField "q_max" FDouble DNan].
(** input.hpp 509-524 *)
Definition GenericCurrentSensorInput : list field :=
  [mkField "id" FInt32 DNaID;
   mkField "measured_object" FInt32 DNaID;
   mkField "measured_terminal_type" FInt8 DNaIntS;
   mkField "angle_measurement_type" FInt8 DNaIntS;
   mkField "i_sigma" FDouble DNan;
   mkField "i_angle_sigma" FDouble DNan].
(** input.hpp 527-550 *)
Definition CurrentSensorInput (sym : bool) : list field :=
  [mkField "id" FInt32 DNaID;
   mkField "measured_object" FInt32 DNaID;
   mkField "measured_terminal_type" FInt8 DNaIntS;
   mkField "angle_measurement_type" FInt8 DNaIntS;
   mkField "i_sigma" FDouble DNan;
   mkField "i_angle_sigma" FDouble DNan;
   mkField "i_measured" (FReal sym) DNan;
   mkField "i_angle_measured" (FReal sym) DNan].
(** auxiliary/update.hpp 1-251: the structs, each with its members in order. *)
(** update.hpp 16-18 *)
Definition BaseUpdate : list field :=
  [mkField "id" FInt32 DNaID].
(** update.hpp 20-28 *)
Definition BranchUpdate : list field :=
  [mkField "id" FInt32 DNaID;
   mkField "from_status" FInt8 DNaIntS;
   mkField "to_status" FInt8 DNaIntS].
(** update.hpp 30-39 *)
Definition Branch3Update : list field :=
  [mkField "id" FInt32 DNaID;
   mkField "status_1" FInt8 DNaIntS;
   mkField "status_2" FInt8 DNaIntS;
   mkField "status_3" FInt8 DNaIntS].
(** update.hpp 41-48 *)
Definition ApplianceUpdate : list field :=
  [mkField "id" FInt32 DNaID;
   mkField "status" FInt8 DNaIntS].
(** update.hpp 50-63 *)
Definition TransformerUpdate : list field :=
  [mkField "id" FInt32 DNaID;
   mkField "from_status" FInt8 DNaIntS;
   mkField "to_status" FInt8 DNaIntS;
   mkField "tap_pos" FInt8 DNaIntS].
(** update.hpp 65-79 *)
Definition ThreeWindingTransformerUpdate : list field :=
  [mkField "id" FInt32 DNaID;
   mkField "status_1" FInt8 DNaIntS;
   mkField "status_2" FInt8 DNaIntS;
   mkField "status_3" FInt8 DNaIntS;
   mkField "tap_pos" FInt8 DNaIntS].
(** update.hpp 82-97 *)
Definition LoadGenUpdate (sym : bool) : list field :=
  [mkField "id" FInt32 DNaID;
   mkField "status" FInt8 DNaIntS;
   mkField "p_specified" (FReal sym) DNan;
   mkField "q_specified" (FReal sym) DNan].
(** update.hpp 102-118 *)
Definition SourceUpdate : list field :=
  [mkField "id" FInt32 DNaID;
   mkField "status" FInt8 DNaIntS;
   mkField "u_ref" FDouble DNan;
   mkField "u_ref_angle" FDouble DNan;
   mkField "sk" FDouble DNan;
   mkField "rx_ratio" FDouble DNan;
   mkField "z01_ratio" FDouble DNan].
(** update.hpp 120-135 *)
Definition ShuntUpdate : list field :=
  [mkField "id" FInt32 DNaID;
   mkField "status" FInt8 DNaIntS;
   mkField "g1" FDouble DNan;
   mkField "b1" FDouble DNan;
   mkField "g0" FDouble DNan;
   mkField "b0" FDouble DNan].
(** update.hpp 138-149 *)
Definition VoltageSensorUpdate (sym : bool) : list field :=
  [mkField "id" FInt32 DNaID;
   mkField "u_sigma" FDouble DNan;
   mkField "u_measured" (FReal sym) DNan;
   mkField "u_angle_measured" (FReal sym) DNan].
(** update.hpp 155-168 *)
Definition PowerSensorUpdate (sym : bool) : list field :=
  [mkField "id" FInt32 DNaID;
   mkField "power_sigma" FDouble DNan;
   mkField "p_measured" (FReal sym) DNan;
   mkField "q_measured" (FReal sym) DNan;
   mkField "p_sigma" (FReal sym) DNan;
   mkField "q_sigma" (FReal sym) DNan].
(** update.hpp 173-185 *)
Definition FaultUpdate : list field :=
  [mkField "id" FInt32 DNaID;
   mkField "status" FInt8 DNaIntS;
   mkField "fault_type" FInt8 DNaIntS;
   mkField "fault_phase" FInt8 DNaIntS;
   mkField "fault_object" FInt32 DNaID;
   mkField "r_f" FDouble DNan;
   mkField "x_f" FDouble DNan].
(** update.hpp 187-194 *)
Definition RegulatorUpdate : list field :=
  [mkField "id" FInt32 DNaID;
   mkField "status" FInt8 DNaIntS].
(** update.hpp 196-211 *)
Definition TransformerTapRegulatorUpdate : list field :=
  [mkField "id" FInt32 DNaID;
   mkField "status" FInt8 DNaIntS;
   mkField "u_set" FDouble DNan;
   mkField "u_band" FDouble DNan;
   mkField "line_drop_compensation_r" FDouble DNan;
   mkField "line_drop_compensation_x" FDouble DNan].
(** update.hpp 213-227 *)
Definition VoltageRegulatorUpdate : list field :=
  [mkField "id" FInt32 DNaID;
   mkField "status" FInt8 DNaIntS;
   mkField "u_ref" FDouble DNan;
   mkField "q_min" FDouble DNan;
   mkField "q_max" FDouble DNan].
(** update.hpp 230-242 *)
Definition CurrentSensorUpdate (sym : bool) : list field :=
  [mkField "id" FInt32 DNaID;
   mkField "i_sigma" FDouble DNan;
   mkField "i_angle_sigma" FDouble DNan;
   mkField "i_measured" (FReal sym) DNan;
   mkField "i_angle_measured" (FReal sym) DNan].
(** auxiliary/output.hpp 1-279: the structs, each with its members in order. *)
(** output.hpp 15-18 *)
Definition BaseOutput : list field :=
  [mkField "id" FInt32 DNaID;
   mkField "energized" FInt8 DNaIntS].
(** output.hpp 21-35 *)
Definition NodeOutput (sym : bool) : list field :=
  [mkField "id" FInt32 DNaID;
   mkField "energized" FInt8 DNaIntS;
   mkField "u_pu" (FReal sym) DNan;
   mkField "u" (FReal sym) DNan;
   mkField "u_angle" (FReal sym) DNan;
   mkField "p" (FReal sym) DNan;
   mkField "q" (FReal sym) DNan].
(** output.hpp 41-59 *)
Definition BranchOutput (sym : bool) : list field :=
  [mkField "id" FInt32 DNaID;
   mkField "energized" FInt8 DNaIntS;
   mkField "loading" FDouble DNan;
   mkField "p_from" (FReal sym) DNan;
   mkField "q_from" (FReal sym) DNan;
   mkField "i_from" (FReal sym) DNan;
   mkField "s_from" (FReal sym) DNan;
   mkField "p_to" (FReal sym) DNan;
   mkField "q_to" (FReal sym) DNan;
   mkField "i_to" (FReal sym) DNan;
   mkField "s_to" (FReal sym) DNan].
(** output.hpp 65-90 *)
Definition Branch3Output (sym : bool) : list field :=
  [mkField "id" FInt32 DNaID;
   mkField "energized" FInt8 DNaIntS;
   mkField "loading_1" FDouble DNan;
   mkField "loading_2" FDouble DNan;
   mkField "loading_3" FDouble DNan;
   mkField "loading" FDouble DNan;
   mkField "p_1" (FReal sym) DNan;
   mkField "q_1" (FReal sym) DNan;
   mkField "i_1" (FReal sym) DNan;
   mkField "s_1" (FReal sym) DNan;
   mkField "p_2" (FReal sym) DNan;
   mkField "q_2" (FReal sym) DNan;
   mkField "i_2" (FReal sym) DNan;
   mkField "s_2" (FReal sym) DNan;
   mkField "p_3" (FReal sym) DNan;
   mkField "q_3" (FReal sym) DNan;
   mkField "i_3" (FReal sym) DNan;
   mkField "s_3" (FReal sym) DNan].
(** output.hpp 96-110 *)
Definition ApplianceOutput (sym : bool) : list field :=
  [mkField "id" FInt32 DNaID;
   mkField "energized" FInt8 DNaIntS;
   mkField "p" (FReal sym) DNan;
   mkField "q" (FReal sym) DNan;
   mkField "i" (FReal sym) DNan;
   mkField "s" (FReal sym) DNan;
   mkField "pf" (FReal sym) DNan].
(** output.hpp 116-127 *)
Definition VoltageSensorOutput (sym : bool) : list field :=
  [mkField "id" FInt32 DNaID;
   mkField "energized" FInt8 DNaIntS;
   mkField "u_residual" (FReal sym) DNan;
   mkField "u_angle_residual" (FReal sym) DNan].
(** output.hpp 133-144 *)
Definition PowerSensorOutput (sym : bool) : list field :=
  [mkField "id" FInt32 DNaID;
   mkField "energized" FInt8 DNaIntS;
   mkField "p_residual" (FReal sym) DNan;
   mkField "q_residual" (FReal sym) DNan].
(** output.hpp 149-156 *)
Definition FaultOutput : list field :=
  [mkField "id" FInt32 DNaID;
   mkField "energized" FInt8 DNaIntS].
(** output.hpp 158-167 *)
Definition FaultShortCircuitOutput : list field :=
  [mkField "id" FInt32 DNaID;
   mkField "energized" FInt8 DNaIntS;
   mkField "i_f" FDouble3 DNan;
   mkField "i_f_angle" FDouble3 DNan].
(** output.hpp 169-179 *)
Definition NodeShortCircuitOutput : list field :=
  [mkField "id" FInt32 DNaID;
   mkField "energized" FInt8 DNaIntS;
   mkField "u_pu" FDouble3 DNan;
   mkField "u" FDouble3 DNan;
   mkField "u_angle" FDouble3 DNan].
(** output.hpp 181-192 *)
Definition BranchShortCircuitOutput : list field :=
  [mkField "id" FInt32 DNaID;
   mkField "energized" FInt8 DNaIntS;
   mkField "i_from" FDouble3 DNan;
   mkField "i_from_angle" FDouble3 DNan;
   mkField "i_to" FDouble3 DNan;
   mkField "i_to_angle" FDouble3 DNan].
(** output.hpp 194-207 *)
Definition Branch3ShortCircuitOutput : list field :=
  [mkField "id" FInt32 DNaID;
   mkField "energized" FInt8 DNaIntS;
   mkField "i_1" FDouble3 DNan;
   mkField "i_1_angle" FDouble3 DNan;
   mkField "i_2" FDouble3 DNan;
   mkField "i_2_angle" FDouble3 DNan;
   mkField "i_3" FDouble3 DNan;
   mkField "i_3_angle" FDouble3 DNan].
(** output.hpp 209-218 *)
Definition ApplianceShortCircuitOutput : list field :=
  [mkField "id" FInt32 DNaID;
   mkField "energized" FInt8 DNaIntS;
   mkField "i" FDouble3 DNan;
   mkField "i_angle" FDouble3 DNan].
(** output.hpp 220-227 *)
Definition SensorShortCircuitOutput : list field :=
  [mkField "id" FInt32 DNaID;
   mkField "energized" FInt8 DNaIntS].
(** output.hpp 229-237 *)
Definition TransformerTapRegulatorOutput : list field :=
  [mkField "id" FInt32 DNaID;
   mkField "energized" FInt8 DNaIntS;
   mkField "tap_pos" FInt8 DNaIntS].
(** output.hpp 239-247 *)
Definition VoltageRegulatorOutput : list field :=
  [mkField "id" FInt32 DNaID;
   mkField "energized" FInt8 DNaIntS;
   mkField "limit_violated" FInt8 DNaIntS].
(** output.hpp 249-256 *)
Definition RegulatorShortCircuitOutput : list field :=
  [mkField "id" FInt32 DNaID;
   mkField "energized" FInt8 DNaIntS].
(** output.hpp 259-270 *)
Definition CurrentSensorOutput (sym : bool) : list field :=
  [mkField "id" FInt32 DNaID;
   mkField "energized" FInt8 DNaIntS;
   mkField "i_residual" (FReal sym) DNan;
   mkField "i_angle_residual" (FReal sym) DNan].
(** auxiliary/meta_gen/input.hpp 1-495: for each attribute the member, the member in offsetof and the name. *)
(** meta_gen/input.hpp 26-32 *)
Definition BaseInput_list : list (string * string * string) :=
  [("id", "id", "id")].
(** meta_gen/input.hpp 35-42 *)
Definition NodeInput_list : list (string * string * string) :=
  [("id", "id", "id");
   ("u_rated", "u_rated", "u_rated")].
(** meta_gen/input.hpp 45-55 *)
Definition BranchInput_list : list (string * string * string) :=
  [("id", "id", "id");
   ("from_node", "from_node", "from_node");
   ("to_node", "to_node", "to_node");
   ("from_status", "from_status", "from_status");
   ("to_status", "to_status", "to_status")].
(** meta_gen/input.hpp 58-70 *)
Definition Branch3Input_list : list (string * string * string) :=
  [("id", "id", "id");
   ("node_1", "node_1", "node_1");
   ("node_2", "node_2", "node_2");
   ("node_3", "node_3", "node_3");
   ("status_1", "status_1", "status_1");
   ("status_2", "status_2", "status_2");
   ("status_3", "status_3", "status_3")].
(** meta_gen/input.hpp 73-80 *)
Definition SensorInput_list : list (string * string * string) :=
  [("id", "id", "id");
   ("measured_object", "measured_object", "measured_object")].
(** meta_gen/input.hpp 83-91 *)
Definition ApplianceInput_list : list (string * string * string) :=
  [("id", "id", "id");
   ("node", "node", "node");
   ("status", "status", "status")].
(** meta_gen/input.hpp 94-113 *)
Definition LineInput_list : list (string * string * string) :=
  [("id", "id", "id");
   ("from_node", "from_node", "from_node");
   ("to_node", "to_node", "to_node");
   ("from_status", "from_status", "from_status");
   ("to_status", "to_status", "to_status");
   ("r1", "r1", "r1");
   ("x1", "x1", "x1");
   ("c1", "c1", "c1");
   ("tan1", "tan1", "tan1");
   ("r0", "r0", "r0");
   ("x0", "x0", "x0");
   ("c0", "c0", "c0");
   ("tan0", "tan0", "tan0");
   ("i_n", "i_n", "i_n")].
(** meta_gen/input.hpp 116-155 *)
Definition AsymLineInput_list : list (string * string * string) :=
  [("id", "id", "id");
   ("from_node", "from_node", "from_node");
   ("to_node", "to_node", "to_node");
   ("from_status", "from_status", "from_status");
   ("to_status", "to_status", "to_status");
   ("r_aa", "r_aa", "r_aa");
   ("r_ba", "r_ba", "r_ba");
   ("r_bb", "r_bb", "r_bb");
   ("r_ca", "r_ca", "r_ca");
   ("r_cb", "r_cb", "r_cb");
   ("r_cc", "r_cc", "r_cc");
   ("r_na", "r_na", "r_na");
   ("r_nb", "r_nb", "r_nb");
   ("r_nc", "r_nc", "r_nc");
   ("r_nn", "r_nn", "r_nn");
   ("x_aa", "x_aa", "x_aa");
   ("x_ba", "x_ba", "x_ba");
   ("x_bb", "x_bb", "x_bb");
   ("x_ca", "x_ca", "x_ca");
   ("x_cb", "x_cb", "x_cb");
   ("x_cc", "x_cc", "x_cc");
   ("x_na", "x_na", "x_na");
   ("x_nb", "x_nb", "x_nb");
   ("x_nc", "x_nc", "x_nc");
   ("x_nn", "x_nn", "x_nn");
   ("c_aa", "c_aa", "c_aa");
   ("c_ba", "c_ba", "c_ba");
   ("c_bb", "c_bb", "c_bb");
   ("c_ca", "c_ca", "c_ca");
   ("c_cb", "c_cb", "c_cb");
   ("c_cc", "c_cc", "c_cc");
   ("c0", "c0", "c0");
   ("c1", "c1", "c1");
   ("i_n", "i_n", "i_n")].
(** meta_gen/input.hpp 158-175 *)
Definition GenericBranchInput_list : list (string * string * string) :=
  [("id", "id", "id");
   ("from_node", "from_node", "from_node");
   ("to_node", "to_node", "to_node");
   ("from_status", "from_status", "from_status");
   ("to_status", "to_status", "to_status");
   ("r1", "r1", "r1");
   ("x1", "x1", "x1");
   ("g1", "g1", "g1");
   ("b1", "b1", "b1");
   ("k", "k", "k");
   ("theta", "theta", "theta");
   ("sn", "sn", "sn")].
(** meta_gen/input.hpp 178-188 *)
Definition LinkInput_list : list (string * string * string) :=
  [("id", "id", "id");
   ("from_node", "from_node", "from_node");
   ("to_node", "to_node", "to_node");
   ("from_status", "from_status", "from_status");
   ("to_status", "to_status", "to_status")].
(** meta_gen/input.hpp 191-227 *)
Definition TransformerInput_list : list (string * string * string) :=
  [("id", "id", "id");
   ("from_node", "from_node", "from_node");
   ("to_node", "to_node", "to_node");
   ("from_status", "from_status", "from_status");
   ("to_status", "to_status", "to_status");
   ("u1", "u1", "u1");
   ("u2", "u2", "u2");
   ("sn", "sn", "sn");
   ("uk", "uk", "uk");
   ("pk", "pk", "pk");
   ("i0", "i0", "i0");
   ("p0", "p0", "p0");
   ("i0_zero_sequence", "i0_zero_sequence", "i0_zero_sequence");
   ("p0_zero_sequence", "p0_zero_sequence", "p0_zero_sequence");
   ("winding_from", "winding_from", "winding_from");
   ("winding_to", "winding_to", "winding_to");
   ("clock", "clock", "clock");
   ("tap_side", "tap_side", "tap_side");
   ("tap_pos", "tap_pos", "tap_pos");
   ("tap_min", "tap_min", "tap_min");
   ("tap_max", "tap_max", "tap_max");
   ("tap_nom", "tap_nom", "tap_nom");
   ("tap_size", "tap_size", "tap_size");
   ("uk_min", "uk_min", "uk_min");
   ("uk_max", "uk_max", "uk_max");
   ("pk_min", "pk_min", "pk_min");
   ("pk_max", "pk_max", "pk_max");
   ("r_grounding_from", "r_grounding_from", "r_grounding_from");
   ("x_grounding_from", "x_grounding_from", "x_grounding_from");
   ("r_grounding_to", "r_grounding_to", "r_grounding_to");
   ("x_grounding_to", "x_grounding_to", "x_grounding_to")].
(** meta_gen/input.hpp 230-285 *)
Definition ThreeWindingTransformerInput_list : list (string * string * string) :=
  [("id", "id", "id");
   ("node_1", "node_1", "node_1");
   ("node_2", "node_2", "node_2");
   ("node_3", "node_3", "node_3");
   ("status_1", "status_1", "status_1");
   ("status_2", "status_2", "status_2");
   ("status_3", "status_3", "status_3");
   ("u1", "u1", "u1");
   ("u2", "u2", "u2");
   ("u3", "u3", "u3");
   ("sn_1", "sn_1", "sn_1");
   ("sn_2", "sn_2", "sn_2");
   ("sn_3", "sn_3", "sn_3");
   ("uk_12", "uk_12", "uk_12");
   ("uk_13", "uk_13", "uk_13");
   ("uk_23", "uk_23", "uk_23");
   ("pk_12", "pk_12", "pk_12");
   ("pk_13", "pk_13", "pk_13");
   ("pk_23", "pk_23", "pk_23");
   ("i0", "i0", "i0");
   ("p0", "p0", "p0");
   ("winding_1", "winding_1", "winding_1");
   ("winding_2", "winding_2", "winding_2");
   ("winding_3", "winding_3", "winding_3");
   ("clock_12", "clock_12", "clock_12");
   ("clock_13", "clock_13", "clock_13");
   ("tap_side", "tap_side", "tap_side");
   ("tap_pos", "tap_pos", "tap_pos");
   ("tap_min", "tap_min", "tap_min");
   ("tap_max", "tap_max", "tap_max");
   ("tap_nom", "tap_nom", "tap_nom");
   ("tap_size", "tap_size", "tap_size");
   ("uk_12_min", "uk_12_min", "uk_12_min");
   ("uk_12_max", "uk_12_max", "uk_12_max");
   ("uk_13_min", "uk_13_min", "uk_13_min");
   ("uk_13_max", "uk_13_max", "uk_13_max");
   ("uk_23_min", "uk_23_min", "uk_23_min");
   ("uk_23_max", "uk_23_max", "uk_23_max");
   ("pk_12_min", "pk_12_min", "pk_12_min");
   ("pk_12_max", "pk_12_max", "pk_12_max");
   ("pk_13_min", "pk_13_min", "pk_13_min");
   ("pk_13_max", "pk_13_max", "pk_13_max");
   ("pk_23_min", "pk_23_min", "pk_23_min");
   ("pk_23_max", "pk_23_max", "pk_23_max");
   ("r_grounding_1", "r_grounding_1", "r_grounding_1");
   ("x_grounding_1", "x_grounding_1", "x_grounding_1");
   ("r_grounding_2", "r_grounding_2", "r_grounding_2");
   ("x_grounding_2", "x_grounding_2", "x_grounding_2");
   ("r_grounding_3", "r_grounding_3", "r_grounding_3");
   ("x_grounding_3", "x_grounding_3", "x_grounding_3")].
(** meta_gen/input.hpp 288-297 *)
Definition GenericLoadGenInput_list : list (string * string * string) :=
  [("id", "id", "id");
   ("node", "node", "node");
   ("status", "status", "status");
   ("type", "type", "type")].
(** meta_gen/input.hpp 300-313 *)
Definition LoadGenInput_list : list (string * string * string) :=
  [("id", "id", "id");
   ("node", "node", "node");
   ("status", "status", "status");
   ("type", "type", "type");
   ("p_specified", "p_specified", "p_specified");
   ("q_specified", "q_specified", "q_specified")].
(** meta_gen/input.hpp 316-328 *)
Definition ShuntInput_list : list (string * string * string) :=
  [("id", "id", "id");
   ("node", "node", "node");
   ("status", "status", "status");
   ("g1", "g1", "g1");
   ("b1", "b1", "b1");
   ("g0", "g0", "g0");
   ("b0", "b0", "b0")].
(** meta_gen/input.hpp 331-344 *)
Definition SourceInput_list : list (string * string * string) :=
  [("id", "id", "id");
   ("node", "node", "node");
   ("status", "status", "status");
   ("u_ref", "u_ref", "u_ref");
   ("u_ref_angle", "u_ref_angle", "u_ref_angle");
   ("sk", "sk", "sk");
   ("rx_ratio", "rx_ratio", "rx_ratio");
   ("z01_ratio", "z01_ratio", "z01_ratio")].
(** meta_gen/input.hpp 347-355 *)
Definition GenericVoltageSensorInput_list : list (string * string * string) :=
  [("id", "id", "id");
   ("measured_object", "measured_object", "measured_object");
   ("u_sigma", "u_sigma", "u_sigma")].
(** meta_gen/input.hpp 358-370 *)
Definition VoltageSensorInput_list : list (string * string * string) :=
  [("id", "id", "id");
   ("measured_object", "measured_object", "measured_object");
   ("u_sigma", "u_sigma", "u_sigma");
   ("u_measured", "u_measured", "u_measured");
   ("u_angle_measured", "u_angle_measured", "u_angle_measured")].
(** meta_gen/input.hpp 373-382 *)
Definition GenericPowerSensorInput_list : list (string * string * string) :=
  [("id", "id", "id");
   ("measured_object", "measured_object", "measured_object");
   ("measured_terminal_type", "measured_terminal_type", "measured_terminal_type");
   ("power_sigma", "power_sigma", "power_sigma")].
(** meta_gen/input.hpp 385-400 *)
Definition PowerSensorInput_list : list (string * string * string) :=
  [("id", "id", "id");
   ("measured_object", "measured_object", "measured_object");
   ("measured_terminal_type", "measured_terminal_type", "measured_terminal_type");
   ("power_sigma", "power_sigma", "power_sigma");
   ("p_measured", "p_measured", "p_measured");
   ("q_measured", "q_measured", "q_measured");
   ("p_sigma", "p_sigma", "p_sigma");
   ("q_sigma", "q_sigma", "q_sigma")].
(** meta_gen/input.hpp 403-415 *)
Definition FaultInput_list : list (string * string * string) :=
  [("id", "id", "id");
   ("status", "status", "status");
   ("fault_type", "fault_type", "fault_type");
   ("fault_phase", "fault_phase", "fault_phase");
   ("fault_object", "fault_object", "fault_object");
   ("r_f", "r_f", "r_f");
   ("x_f", "x_f", "x_f")].
(** meta_gen/input.hpp 418-426 *)
Definition RegulatorInput_list : list (string * string * string) :=
  [("id", "id", "id");
   ("regulated_object", "regulated_object", "regulated_object");
   ("status", "status", "status")].
(** meta_gen/input.hpp 429-442 *)
Definition TransformerTapRegulatorInput_list : list (string * string * string) :=
  [("id", "id", "id");
   ("regulated_object", "regulated_object", "regulated_object");
   ("status", "status", "status");
   ("control_side", "control_side", "control_side");
   ("u_set", "u_set", "u_set");
   ("u_band", "u_band", "u_band");
   ("line_drop_compensation_r", "line_drop_compensation_r", "line_drop_compensation_r");
   ("line_drop_compensation_x", "line_drop_compensation_x", "line_drop_compensation_x")].
(** meta_gen/input.hpp 445-456 *)
Definition VoltageRegulatorInput_list : list (string * string * string) :=
  [("id", "id", "id");
   ("regulated_object", "regulated_object", "regulated_object");
   ("status", "status", "status");
   ("u_ref", "u_ref", "u_ref");
   ("q_min", "q_min", "q_min");
   ("q_max", "q_max", "q_max")].
(** meta_gen/input.hpp 459-470 *)
Definition GenericCurrentSensorInput_list : list (string * string * string) :=
  [("id", "id", "id");
   ("measured_object", "measured_object", "measured_object");
   ("measured_terminal_type", "measured_terminal_type", "measured_terminal_type");
   ("angle_measurement_type", "angle_measurement_type", "angle_measurement_type");
   ("i_sigma", "i_sigma", "i_sigma");
   ("i_angle_sigma", "i_angle_sigma", "i_angle_sigma")].
(** meta_gen/input.hpp 473-488 *)
Definition CurrentSensorInput_list : list (string * string * string) :=
  [("id", "id", "id");
   ("measured_object", "measured_object", "measured_object");
   ("measured_terminal_type", "measured_terminal_type", "measured_terminal_type");
   ("angle_measurement_type", "angle_measurement_type", "angle_measurement_type");
   ("i_sigma", "i_sigma", "i_sigma");
   ("i_angle_sigma", "i_angle_sigma", "i_angle_sigma");
   ("i_measured", "i_measured", "i_measured");
   ("i_angle_measured", "i_angle_measured", "i_angle_measured")].
(** auxiliary/meta_gen/update.hpp 1-237: for each attribute the member, the member in offsetof and the name. *)
(** meta_gen/update.hpp 26-32 *)
Definition BaseUpdate_list : list (string * string * string) :=
  [("id", "id", "id")].
(** meta_gen/update.hpp 35-43 *)
Definition BranchUpdate_list : list (string * string * string) :=
  [("id", "id", "id");
   ("from_status", "from_status", "from_status");
   ("to_status", "to_status", "to_status")].
(** meta_gen/update.hpp 46-55 *)
Definition Branch3Update_list : list (string * string * string) :=
  [("id", "id", "id");
   ("status_1", "status_1", "status_1");
   ("status_2", "status_2", "status_2");
   ("status_3", "status_3", "status_3")].
(** meta_gen/update.hpp 58-65 *)
Definition ApplianceUpdate_list : list (string * string * string) :=
  [("id", "id", "id");
   ("status", "status", "status")].
(** meta_gen/update.hpp 68-77 *)
Definition TransformerUpdate_list : list (string * string * string) :=
  [("id", "id", "id");
   ("from_status", "from_status", "from_status");
   ("to_status", "to_status", "to_status");
   ("tap_pos", "tap_pos", "tap_pos")].
(** meta_gen/update.hpp 80-90 *)
Definition ThreeWindingTransformerUpdate_list : list (string * string * string) :=
  [("id", "id", "id");
   ("status_1", "status_1", "status_1");
   ("status_2", "status_2", "status_2");
   ("status_3", "status_3", "status_3");
   ("tap_pos", "tap_pos", "tap_pos")].
(** meta_gen/update.hpp 93-104 *)
Definition LoadGenUpdate_list : list (string * string * string) :=
  [("id", "id", "id");
   ("status", "status", "status");
   ("p_specified", "p_specified", "p_specified");
   ("q_specified", "q_specified", "q_specified")].
(** meta_gen/update.hpp 107-119 *)
Definition SourceUpdate_list : list (string * string * string) :=
  [("id", "id", "id");
   ("status", "status", "status");
   ("u_ref", "u_ref", "u_ref");
   ("u_ref_angle", "u_ref_angle", "u_ref_angle");
   ("sk", "sk", "sk");
   ("rx_ratio", "rx_ratio", "rx_ratio");
   ("z01_ratio", "z01_ratio", "z01_ratio")].
(** meta_gen/update.hpp 122-133 *)
Definition ShuntUpdate_list : list (string * string * string) :=
  [("id", "id", "id");
   ("status", "status", "status");
   ("g1", "g1", "g1");
   ("b1", "b1", "b1");
   ("g0", "g0", "g0");
   ("b0", "b0", "b0")].
(** meta_gen/update.hpp 136-147 *)
Definition VoltageSensorUpdate_list : list (string * string * string) :=
  [("id", "id", "id");
   ("u_sigma", "u_sigma", "u_sigma");
   ("u_measured", "u_measured", "u_measured");
   ("u_angle_measured", "u_angle_measured", "u_angle_measured")].
(** meta_gen/update.hpp 150-163 *)
Definition PowerSensorUpdate_list : list (string * string * string) :=
  [("id", "id", "id");
   ("power_sigma", "power_sigma", "power_sigma");
   ("p_measured", "p_measured", "p_measured");
   ("q_measured", "q_measured", "q_measured");
   ("p_sigma", "p_sigma", "p_sigma");
   ("q_sigma", "q_sigma", "q_sigma")].
(** meta_gen/update.hpp 166-178 *)
Definition FaultUpdate_list : list (string * string * string) :=
  [("id", "id", "id");
   ("status", "status", "status");
   ("fault_type", "fault_type", "fault_type");
   ("fault_phase", "fault_phase", "fault_phase");
   ("fault_object", "fault_object", "fault_object");
   ("r_f", "r_f", "r_f");
   ("x_f", "x_f", "x_f")].
(** meta_gen/update.hpp 181-188 *)
Definition RegulatorUpdate_list : list (string * string * string) :=
  [("id", "id", "id");
   ("status", "status", "status")].
(** meta_gen/update.hpp 191-202 *)
Definition TransformerTapRegulatorUpdate_list : list (string * string * string) :=
  [("id", "id", "id");
   ("status", "status", "status");
   ("u_set", "u_set", "u_set");
   ("u_band", "u_band", "u_band");
   ("line_drop_compensation_r", "line_drop_compensation_r", "line_drop_compensation_r");
   ("line_drop_compensation_x", "line_drop_compensation_x", "line_drop_compensation_x")].
(** meta_gen/update.hpp 205-215 *)
Definition VoltageRegulatorUpdate_list : list (string * string * string) :=
  [("id", "id", "id");
   ("status", "status", "status");
   ("u_ref", "u_ref", "u_ref");
   ("q_min", "q_min", "q_min");
   ("q_max", "q_max", "q_max")].
(** meta_gen/update.hpp 218-230 *)
Definition CurrentSensorUpdate_list : list (string * string * string) :=
  [("id", "id", "id");
   ("i_sigma", "i_sigma", "i_sigma");
   ("i_angle_sigma", "i_angle_sigma", "i_angle_sigma");
   ("i_measured", "i_measured", "i_measured");
   ("i_angle_measured", "i_angle_measured", "i_angle_measured")].
(** auxiliary/meta_gen/output.hpp 1-284: for each attribute the member, the member in offsetof and the name. *)
(** meta_gen/output.hpp 26-33 *)
Definition BaseOutput_list : list (string * string * string) :=
  [("id", "id", "id");
   ("energized", "energized", "energized")].
(** meta_gen/output.hpp 36-50 *)
Definition NodeOutput_list : list (string * string * string) :=
  [("id", "id", "id");
   ("energized", "energized", "energized");
   ("u_pu", "u_pu", "u_pu");
   ("u", "u", "u");
   ("u_angle", "u_angle", "u_angle");
   ("p", "p", "p");
   ("q", "q", "q")].
(** meta_gen/output.hpp 53-71 *)
Definition BranchOutput_list : list (string * string * string) :=
  [("id", "id", "id");
   ("energized", "energized", "energized");
   ("loading", "loading", "loading");
   ("p_from", "p_from", "p_from");
   ("q_from", "q_from", "q_from");
   ("i_from", "i_from", "i_from");
   ("s_from", "s_from", "s_from");
   ("p_to", "p_to", "p_to");
   ("q_to", "q_to", "q_to");
   ("i_to", "i_to", "i_to");
   ("s_to", "s_to", "s_to")].
(** meta_gen/output.hpp 74-99 *)
Definition Branch3Output_list : list (string * string * string) :=
  [("id", "id", "id");
   ("energized", "energized", "energized");
   ("loading_1", "loading_1", "loading_1");
   ("loading_2", "loading_2", "loading_2");
   ("loading_3", "loading_3", "loading_3");
   ("loading", "loading", "loading");
   ("p_1", "p_1", "p_1");
   ("q_1", "q_1", "q_1");
   ("i_1", "i_1", "i_1");
   ("s_1", "s_1", "s_1");
   ("p_2", "p_2", "p_2");
   ("q_2", "q_2", "q_2");
   ("i_2", "i_2", "i_2");
   ("s_2", "s_2", "s_2");
   ("p_3", "p_3", "p_3");
   ("q_3", "q_3", "q_3");
   ("i_3", "i_3", "i_3");
   ("s_3", "s_3", "s_3")].
(** meta_gen/output.hpp 102-116 *)
Definition ApplianceOutput_list : list (string * string * string) :=
  [("id", "id", "id");
   ("energized", "energized", "energized");
   ("p", "p", "p");
   ("q", "q", "q");
   ("i", "i", "i");
   ("s", "s", "s");
   ("pf", "pf", "pf")].
(** meta_gen/output.hpp 119-130 *)
Definition VoltageSensorOutput_list : list (string * string * string) :=
  [("id", "id", "id");
   ("energized", "energized", "energized");
   ("u_residual", "u_residual", "u_residual");
   ("u_angle_residual", "u_angle_residual", "u_angle_residual")].
(** meta_gen/output.hpp 133-144 *)
Definition PowerSensorOutput_list : list (string * string * string) :=
  [("id", "id", "id");
   ("energized", "energized", "energized");
   ("p_residual", "p_residual", "p_residual");
   ("q_residual", "q_residual", "q_residual")].
(** meta_gen/output.hpp 147-154 *)
Definition FaultOutput_list : list (string * string * string) :=
  [("id", "id", "id");
   ("energized", "energized", "energized")].
(** meta_gen/output.hpp 157-166 *)
Definition FaultShortCircuitOutput_list : list (string * string * string) :=
  [("id", "id", "id");
   ("energized", "energized", "energized");
   ("i_f", "i_f", "i_f");
   ("i_f_angle", "i_f_angle", "i_f_angle")].
(** meta_gen/output.hpp 169-179 *)
Definition NodeShortCircuitOutput_list : list (string * string * string) :=
  [("id", "id", "id");
   ("energized", "energized", "energized");
   ("u_pu", "u_pu", "u_pu");
   ("u", "u", "u");
   ("u_angle", "u_angle", "u_angle")].
(** meta_gen/output.hpp 182-193 *)
Definition BranchShortCircuitOutput_list : list (string * string * string) :=
  [("id", "id", "id");
   ("energized", "energized", "energized");
   ("i_from", "i_from", "i_from");
   ("i_from_angle", "i_from_angle", "i_from_angle");
   ("i_to", "i_to", "i_to");
   ("i_to_angle", "i_to_angle", "i_to_angle")].
(** meta_gen/output.hpp 196-209 *)
Definition Branch3ShortCircuitOutput_list : list (string * string * string) :=
  [("id", "id", "id");
   ("energized", "energized", "energized");
   ("i_1", "i_1", "i_1");
   ("i_1_angle", "i_1_angle", "i_1_angle");
   ("i_2", "i_2", "i_2");
   ("i_2_angle", "i_2_angle", "i_2_angle");
   ("i_3", "i_3", "i_3");
   ("i_3_angle", "i_3_angle", "i_3_angle")].
(** meta_gen/output.hpp 212-221 *)
Definition ApplianceShortCircuitOutput_list : list (string * string * string) :=
  [("id", "id", "id");
   ("energized", "energized", "energized");
   ("i", "i", "i");
   ("i_angle", "i_angle", "i_angle")].
(** meta_gen/output.hpp 224-231 *)
Definition SensorShortCircuitOutput_list : list (string * string * string) :=
  [("id", "id", "id");
   ("energized", "energized", "energized")].
(** meta_gen/output.hpp 234-242 *)
Definition TransformerTapRegulatorOutput_list : list (string * string * string) :=
  [("id", "id", "id");
   ("energized", "energized", "energized");
   ("tap_pos", "tap_pos", "tap_pos")].
(** meta_gen/output.hpp 245-253 *)
Definition VoltageRegulatorOutput_list : list (string * string * string) :=
  [("id", "id", "id");
   ("energized", "energized", "energized");
   ("limit_violated", "limit_violated", "limit_violated")].
(** meta_gen/output.hpp 256-263 *)
Definition RegulatorShortCircuitOutput_list : list (string * string * string) :=
  [("id", "id", "id");
   ("energized", "energized", "energized")].
(** meta_gen/output.hpp 266-277 *)
Definition CurrentSensorOutput_list : list (string * string * string) :=
  [("id", "id", "id");
   ("energized", "energized", "energized");
   ("i_residual", "i_residual", "i_residual");
   ("i_angle_residual", "i_angle_residual", "i_angle_residual")].
(** all_components.hpp 37-40, meta_data_gen.hpp 23-28 and the names InputType, UpdateType, OutputType and
    ShortCircuitOutputType of the components (component/*.hpp): the structs of every component, per dataset. *)
Definition dataset_structs : list (string * list (string * list field * list (string * string * string))) :=
  [("input",
   [("node", (NodeInput), NodeInput_list);
    ("line", (LineInput), LineInput_list);
    ("asym_line", (AsymLineInput), AsymLineInput_list);
    ("link", (LinkInput), LinkInput_list);
    ("generic_branch", (GenericBranchInput), GenericBranchInput_list);
    ("transformer", (TransformerInput), TransformerInput_list);
    ("three_winding_transformer", (ThreeWindingTransformerInput), ThreeWindingTransformerInput_list);
    ("shunt", (ShuntInput), ShuntInput_list);
    ("source", (SourceInput), SourceInput_list);
    ("sym_gen", (LoadGenInput true), LoadGenInput_list);
    ("asym_gen", (LoadGenInput false), LoadGenInput_list);
    ("sym_load", (LoadGenInput true), LoadGenInput_list);
    ("asym_load", (LoadGenInput false), LoadGenInput_list);
    ("sym_power_sensor", (PowerSensorInput true), PowerSensorInput_list);
    ("asym_power_sensor", (PowerSensorInput false), PowerSensorInput_list);
    ("sym_voltage_sensor", (VoltageSensorInput true), VoltageSensorInput_list);
    ("asym_voltage_sensor", (VoltageSensorInput false), VoltageSensorInput_list);
    ("sym_current_sensor", (CurrentSensorInput true), CurrentSensorInput_list);
    ("asym_current_sensor", (CurrentSensorInput false), CurrentSensorInput_list);
    ("fault", (FaultInput), FaultInput_list);
    ("transformer_tap_regulator", (TransformerTapRegulatorInput), TransformerTapRegulatorInput_list);
    ("voltage_regulator", (VoltageRegulatorInput), VoltageRegulatorInput_list)]);
  ("update",
   [("node", (BaseUpdate), BaseUpdate_list);
    ("line", (BranchUpdate), BranchUpdate_list);
    ("asym_line", (BranchUpdate), BranchUpdate_list);
    ("link", (BranchUpdate), BranchUpdate_list);
    ("generic_branch", (BranchUpdate), BranchUpdate_list);
    ("transformer", (TransformerUpdate), TransformerUpdate_list);
    ("three_winding_transformer", (ThreeWindingTransformerUpdate), ThreeWindingTransformerUpdate_list);
    ("shunt", (ShuntUpdate), ShuntUpdate_list);
    ("source", (SourceUpdate), SourceUpdate_list);
    ("sym_gen", (LoadGenUpdate true), LoadGenUpdate_list);
    ("asym_gen", (LoadGenUpdate false), LoadGenUpdate_list);
    ("sym_load", (LoadGenUpdate true), LoadGenUpdate_list);
    ("asym_load", (LoadGenUpdate false), LoadGenUpdate_list);
    ("sym_power_sensor", (PowerSensorUpdate true), PowerSensorUpdate_list);
    ("asym_power_sensor", (PowerSensorUpdate false), PowerSensorUpdate_list);
    ("sym_voltage_sensor", (VoltageSensorUpdate true), VoltageSensorUpdate_list);
    ("asym_voltage_sensor", (VoltageSensorUpdate false), VoltageSensorUpdate_list);
    ("sym_current_sensor", (CurrentSensorUpdate true), CurrentSensorUpdate_list);
    ("asym_current_sensor", (CurrentSensorUpdate false), CurrentSensorUpdate_list);
    ("fault", (FaultUpdate), FaultUpdate_list);
    ("transformer_tap_regulator", (TransformerTapRegulatorUpdate), TransformerTapRegulatorUpdate_list);
    ("voltage_regulator", (VoltageRegulatorUpdate), VoltageRegulatorUpdate_list)]);
  ("sym_output",
   [("node", (NodeOutput true), NodeOutput_list);
    ("line", (BranchOutput true), BranchOutput_list);
    ("asym_line", (BranchOutput true), BranchOutput_list);
    ("link", (BranchOutput true), BranchOutput_list);
    ("generic_branch", (BranchOutput true), BranchOutput_list);
    ("transformer", (BranchOutput true), BranchOutput_list);
    ("three_winding_transformer", (Branch3Output true), Branch3Output_list);
    ("shunt", (ApplianceOutput true), ApplianceOutput_list);
    ("source", (ApplianceOutput true), ApplianceOutput_list);
    ("sym_gen", (ApplianceOutput true), ApplianceOutput_list);
    ("asym_gen", (ApplianceOutput true), ApplianceOutput_list);
    ("sym_load", (ApplianceOutput true), ApplianceOutput_list);
    ("asym_load", (ApplianceOutput true), ApplianceOutput_list);
    ("sym_power_sensor", (PowerSensorOutput true), PowerSensorOutput_list);
    ("asym_power_sensor", (PowerSensorOutput true), PowerSensorOutput_list);
    ("sym_voltage_sensor", (VoltageSensorOutput true), VoltageSensorOutput_list);
    ("asym_voltage_sensor", (VoltageSensorOutput true), VoltageSensorOutput_list);
    ("sym_current_sensor", (CurrentSensorOutput true), CurrentSensorOutput_list);
    ("asym_current_sensor", (CurrentSensorOutput true), CurrentSensorOutput_list);
    ("fault", (FaultOutput), FaultOutput_list);
    ("transformer_tap_regulator", (TransformerTapRegulatorOutput), TransformerTapRegulatorOutput_list);
    ("voltage_regulator", (VoltageRegulatorOutput), VoltageRegulatorOutput_list)]);
  ("asym_output",
   [("node", (NodeOutput false), NodeOutput_list);
    ("line", (BranchOutput false), BranchOutput_list);
    ("asym_line", (BranchOutput false), BranchOutput_list);
    ("link", (BranchOutput false), BranchOutput_list);
    ("generic_branch", (BranchOutput false), BranchOutput_list);
    ("transformer", (BranchOutput false), BranchOutput_list);
    ("three_winding_transformer", (Branch3Output false), Branch3Output_list);
    ("shunt", (ApplianceOutput false), ApplianceOutput_list);
    ("source", (ApplianceOutput false), ApplianceOutput_list);
    ("sym_gen", (ApplianceOutput false), ApplianceOutput_list);
    ("asym_gen", (ApplianceOutput false), ApplianceOutput_list);
    ("sym_load", (ApplianceOutput false), ApplianceOutput_list);
    ("asym_load", (ApplianceOutput false), ApplianceOutput_list);
    ("sym_power_sensor", (PowerSensorOutput false), PowerSensorOutput_list);
    ("asym_power_sensor", (PowerSensorOutput false), PowerSensorOutput_list);
    ("sym_voltage_sensor", (VoltageSensorOutput false), VoltageSensorOutput_list);
    ("asym_voltage_sensor", (VoltageSensorOutput false), VoltageSensorOutput_list);
    ("sym_current_sensor", (CurrentSensorOutput false), CurrentSensorOutput_list);
    ("asym_current_sensor", (CurrentSensorOutput false), CurrentSensorOutput_list);
    ("fault", (FaultOutput), FaultOutput_list);
    ("transformer_tap_regulator", (TransformerTapRegulatorOutput), TransformerTapRegulatorOutput_list);
    ("voltage_regulator", (VoltageRegulatorOutput), VoltageRegulatorOutput_list)]);
  ("sc_output",
   [("node", (NodeShortCircuitOutput), NodeShortCircuitOutput_list);
    ("line", (BranchShortCircuitOutput), BranchShortCircuitOutput_list);
    ("asym_line", (BranchShortCircuitOutput), BranchShortCircuitOutput_list);
    ("link", (BranchShortCircuitOutput), BranchShortCircuitOutput_list);
    ("generic_branch", (BranchShortCircuitOutput), BranchShortCircuitOutput_list);
    ("transformer", (BranchShortCircuitOutput), BranchShortCircuitOutput_list);
    ("three_winding_transformer", (Branch3ShortCircuitOutput), Branch3ShortCircuitOutput_list);
    ("shunt", (ApplianceShortCircuitOutput), ApplianceShortCircuitOutput_list);
    ("source", (ApplianceShortCircuitOutput), ApplianceShortCircuitOutput_list);
    ("sym_gen", (ApplianceShortCircuitOutput), ApplianceShortCircuitOutput_list);
    ("asym_gen", (ApplianceShortCircuitOutput), ApplianceShortCircuitOutput_list);
    ("sym_load", (ApplianceShortCircuitOutput), ApplianceShortCircuitOutput_list);
    ("asym_load", (ApplianceShortCircuitOutput), ApplianceShortCircuitOutput_list);
    ("sym_power_sensor", (SensorShortCircuitOutput), SensorShortCircuitOutput_list);
    ("asym_power_sensor", (SensorShortCircuitOutput), SensorShortCircuitOutput_list);
    ("sym_voltage_sensor", (SensorShortCircuitOutput), SensorShortCircuitOutput_list);
    ("asym_voltage_sensor", (SensorShortCircuitOutput), SensorShortCircuitOutput_list);
    ("sym_current_sensor", (SensorShortCircuitOutput), SensorShortCircuitOutput_list);
    ("asym_current_sensor", (SensorShortCircuitOutput), SensorShortCircuitOutput_list);
    ("fault", (FaultShortCircuitOutput), FaultShortCircuitOutput_list);
    ("transformer_tap_regulator", (RegulatorShortCircuitOutput), RegulatorShortCircuitOutput_list);
    ("voltage_regulator", (RegulatorShortCircuitOutput), RegulatorShortCircuitOutput_list)])].
(** auxiliary/{input,update,output}.hpp: the conversions of a struct to another one, operator Other&, which are reinterpret_cast (lines
    25, 37, 51 and so on); those of templates for both values of sym. *)
Definition conversions : list (list field * list field) :=
  [(NodeInput, BaseInput);
   (BranchInput, BaseInput);
   (Branch3Input, BaseInput);
   (SensorInput, BaseInput);
   (ApplianceInput, BaseInput);
   (LineInput, BaseInput);
   (LineInput, BranchInput);
   (AsymLineInput, BaseInput);
   (AsymLineInput, BranchInput);
   (GenericBranchInput, BaseInput);
   (GenericBranchInput, BranchInput);
   (LinkInput, BaseInput);
   (LinkInput, BranchInput);
   (TransformerInput, BaseInput);
   (TransformerInput, BranchInput);
   (ThreeWindingTransformerInput, BaseInput);
   (ThreeWindingTransformerInput, Branch3Input);
   (GenericLoadGenInput, BaseInput);
   (GenericLoadGenInput, ApplianceInput);
   ((LoadGenInput true), BaseInput);
   ((LoadGenInput false), BaseInput);
   ((LoadGenInput true), ApplianceInput);
   ((LoadGenInput false), ApplianceInput);
   ((LoadGenInput true), GenericLoadGenInput);
   ((LoadGenInput false), GenericLoadGenInput);
   (ShuntInput, BaseInput);
   (ShuntInput, ApplianceInput);
   (SourceInput, BaseInput);
   (SourceInput, ApplianceInput);
   (GenericVoltageSensorInput, BaseInput);
   (GenericVoltageSensorInput, SensorInput);
   ((VoltageSensorInput true), BaseInput);
   ((VoltageSensorInput false), BaseInput);
   ((VoltageSensorInput true), SensorInput);
   ((VoltageSensorInput false), SensorInput);
   ((VoltageSensorInput true), GenericVoltageSensorInput);
   ((VoltageSensorInput false), GenericVoltageSensorInput);
   (GenericPowerSensorInput, BaseInput);
   (GenericPowerSensorInput, SensorInput);
   ((PowerSensorInput true), BaseInput);
   ((PowerSensorInput false), BaseInput);
   ((PowerSensorInput true), SensorInput);
   ((PowerSensorInput false), SensorInput);
   ((PowerSensorInput true), GenericPowerSensorInput);
   ((PowerSensorInput false), GenericPowerSensorInput);
   (FaultInput, BaseInput);
   (RegulatorInput, BaseInput);
   (TransformerTapRegulatorInput, BaseInput);
   (TransformerTapRegulatorInput, RegulatorInput);
   (VoltageRegulatorInput, BaseInput);
   (VoltageRegulatorInput, RegulatorInput);
   (GenericCurrentSensorInput, BaseInput);
   (GenericCurrentSensorInput, SensorInput);
   ((CurrentSensorInput true), BaseInput);
   ((CurrentSensorInput false), BaseInput);
   ((CurrentSensorInput true), SensorInput);
   ((CurrentSensorInput false), SensorInput);
   ((CurrentSensorInput true), GenericCurrentSensorInput);
   ((CurrentSensorInput false), GenericCurrentSensorInput);
   (BranchUpdate, BaseUpdate);
   (Branch3Update, BaseUpdate);
   (ApplianceUpdate, BaseUpdate);
   (TransformerUpdate, BaseUpdate);
   (TransformerUpdate, BranchUpdate);
   (ThreeWindingTransformerUpdate, BaseUpdate);
   (ThreeWindingTransformerUpdate, Branch3Update);
   ((LoadGenUpdate true), BaseUpdate);
   ((LoadGenUpdate false), BaseUpdate);
   ((LoadGenUpdate true), ApplianceUpdate);
   ((LoadGenUpdate false), ApplianceUpdate);
   (SourceUpdate, BaseUpdate);
   (SourceUpdate, ApplianceUpdate);
   (ShuntUpdate, BaseUpdate);
   (ShuntUpdate, ApplianceUpdate);
   ((VoltageSensorUpdate true), BaseUpdate);
   ((VoltageSensorUpdate false), BaseUpdate);
   ((PowerSensorUpdate true), BaseUpdate);
   ((PowerSensorUpdate false), BaseUpdate);
   (FaultUpdate, BaseUpdate);
   (RegulatorUpdate, BaseUpdate);
   (TransformerTapRegulatorUpdate, BaseUpdate);
   (TransformerTapRegulatorUpdate, RegulatorUpdate);
   (VoltageRegulatorUpdate, BaseUpdate);
   (VoltageRegulatorUpdate, RegulatorUpdate);
   ((CurrentSensorUpdate true), BaseUpdate);
   ((CurrentSensorUpdate false), BaseUpdate);
   ((NodeOutput true), BaseOutput);
   ((NodeOutput false), BaseOutput);
   ((BranchOutput true), BaseOutput);
   ((BranchOutput false), BaseOutput);
   ((Branch3Output true), BaseOutput);
   ((Branch3Output false), BaseOutput);
   ((ApplianceOutput true), BaseOutput);
   ((ApplianceOutput false), BaseOutput);
   ((VoltageSensorOutput true), BaseOutput);
   ((VoltageSensorOutput false), BaseOutput);
   ((PowerSensorOutput true), BaseOutput);
   ((PowerSensorOutput false), BaseOutput);
   (FaultOutput, BaseOutput);
   (FaultShortCircuitOutput, BaseOutput);
   (NodeShortCircuitOutput, BaseOutput);
   (BranchShortCircuitOutput, BaseOutput);
   (Branch3ShortCircuitOutput, BaseOutput);
   (ApplianceShortCircuitOutput, BaseOutput);
   (SensorShortCircuitOutput, BaseOutput);
   (TransformerTapRegulatorOutput, BaseOutput);
   (VoltageRegulatorOutput, BaseOutput);
   (RegulatorShortCircuitOutput, BaseOutput);
   ((CurrentSensorOutput true), BaseOutput);
   ((CurrentSensorOutput false), BaseOutput)].
