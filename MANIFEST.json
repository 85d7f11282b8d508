{
 "claims": [
  {
   "property": "C01",
   "status": "proved",
   "theorems": [
    "C01_ids_unique",
    "C01_duplicate_id_rejected",
    "C01_conflict_reported",
    "C01_model_holds_the_input"
   ],
   "note": ""
  },
  {
   "property": "C02",
   "status": "proved",
   "theorems": [
    "C02_get_indexer",
    "C02_get_indexer_error"
   ],
   "note": ""
  },
  {
   "property": "C03",
   "status": "proved",
   "theorems": [
    "C03_sequence_order",
    "C03_size",
    "C03_index_to_seq_to_index",
    "C03_seq_to_index_to_seq"
   ],
   "note": ""
  },
  {
   "property": "C04",
   "status": "proved",
   "theorems": [
    "C04_decode_encode",
    "C04_encode_decode",
    "C04_same_ranges",
    "C04_same_sizes",
    "C04_same_group_of_element",
    "C04_dense_from_sparse",
    "C04_iterator_shows_group"
   ],
   "note": ""
  },
  {
   "property": "C05",
   "status": "proved",
   "theorems": [
    "C05_sparse_mapping",
    "C05_dense_mapping",
    "C05_algorithm_choice_not_observable"
   ],
   "note": ""
  },
  {
   "property": "C06",
   "status": "partial",
   "theorems": [
    "C06_update_sets_given_attributes_partial",
    "C06_unaddressed_untouched",
    "C06_unknown_id_changes_nothing",
    "C06_regulator_status_refuted"
   ],
   "note": "Holds for all components except regulators whose record omits the status: the code then switches the regulator on (refuted by a witness)."
  },
  {
   "property": "C07",
   "status": "partial",
   "theorems": [
    "C07_scenario_undone_partial",
    "C07_winddown_succeeds_partial",
    "C07_regulator_status_refuted",
    "C07_missing_base_value_refuted",
    "C07_rounding_refuted",
    "C07_fault_records_refuted"
   ],
   "note": "Proved in exact arithmetic when base values exist and regulator records state the status; the full statement is false, four witnesses."
  },
  {
   "property": "C12",
   "status": "partial",
   "theorems": [
    "C12_scenario_reaches_its_components_partial",
    "C12_first_lookup_valid_for_all",
    "C12_unusable_ids_refused",
    "C12_scenario_no_out_of_range",
    "C12_permanent_update_needs_usable_ids_partial",
    "C12_permanent_update_unchecked_refuted"
   ],
   "note": "Batch scenarios: lookup part proved without restriction. Permanent updates: unusable ids are not refused but read out of range (refuted)."
  },
  {
   "property": "C13",
   "status": "partial",
   "theorems": [
    "C13_no_stale_cache_partial",
    "C13_no_stale_factorisation_partial",
    "C13_same_as_fresh_model_partial",
    "C13_calculation_keeps_components",
    "C13_source_impedance_refuted"
   ],
   "note": "Holds for every history with solvers that keep no factorised matrix, and for all solvers if no update gives new source impedances; false otherwise (witness)."
  },
  {
   "property": "C14",
   "status": "partial",
   "theorems": [
    "C14_components_independent",
    "C14_copy_results_partial",
    "C14_original_results_partial",
    "C14_copy_results_refuted",
    "C14_no_access_refuted"
   ],
   "note": "Components and results of both objects are independent for solvers without kept factorisation; the copy keeps callbacks into the original (two witnesses)."
  },
  {
   "property": "C08",
   "status": "partial",
   "theorems": [
    "C08_each_scenario_once",
    "C08_no_access_outside",
    "C08_workers_stop",
    "C08_worker_count",
    "C08_empty_dataset_refuted"
   ],
   "note": "For every adapter, batch size, threading option, hardware concurrency and interleaving of worker steps. Not for a batch dataset without any component, which is calculated once only (witness)."
  },
  {
   "property": "C09",
   "status": "partial",
   "theorems": [
    "C09_results_as_alone",
    "C09_threading_irrelevant",
    "C09_base_may_lack_data",
    "C09_batch_results_partial",
    "C09_threading_refuted"
   ],
   "note": "Proved for all threads and interleavings when the solver keeps no factorised matrix and scenarios can be undone exactly (C07). Refuted for iterative_current: results depend on the threading option."
  },
  {
   "property": "C10",
   "status": "partial",
   "theorems": [
    "C10_failures_reported",
    "C09_batch_results_partial",
    "C10_empty_message_refuted",
    "C10_base_refused_refuted"
   ],
   "note": "Report proved exact for every failure pattern under the conditions of C09; failures of the base model itself fail the whole call (refuted), and an empty message counts as success (refuted)."
  },
  {
   "property": "C11",
   "status": "partial",
   "theorems": [
    "C11_results",
    "C11_report_partial",
    "C11_no_failures",
    "C11_failures_lost_refuted",
    "C11_silent_failure_refuted",
    "C11_wrong_index_refuted"
   ],
   "note": "Results: proved for every number of dimensions. The report is wrong in the code: failures outside the last row are lost and failed outer updates get wrong indices (three witnesses); what is reported is characterised exactly when outer updates do not throw."
  },
  {
   "property": "C15",
   "status": "proved",
   "theorems": [
    "C15_energised"
   ],
   "note": ""
  },
  {
   "property": "C16",
   "status": "proved",
   "theorems": [
    "C16_phase_shift",
    "C16_any_path"
   ],
   "note": ""
  },
  {
   "property": "C17",
   "status": "proved",
   "theorems": [
    "C17_attached"
   ],
   "note": ""
  },
  {
   "property": "C18",
   "status": "partial",
   "theorems": [
    "C18_ordering",
    "C18_sub_grid_fill_in",
    "C18_two_isolated_refuted"
   ],
   "note": "Proved for every graph the topology analysis passes (each vertex has an edge, or a single vertex); false for graphs with two or more isolated vertices and no edge (refuted), which the library never passes."
  },
  {
   "property": "C19",
   "status": "proved",
   "theorems": [
    "C19_structure",
    "C19_elements",
    "C19_network"
   ],
   "note": "C19_network: every sub-grid of every well-formed network meets sub_grid_ok, and elimination stays inside the pattern."
  },
  {
   "property": "C20",
   "status": "proved",
   "theorems": [
    "C20_admittance",
    "C20_incremental_is_full"
   ],
   "note": "Over any commutative ring, symmetric and three-phase."
  },
  {
   "property": "C21",
   "status": "proved",
   "theorems": [
    "C21_kirchhoff"
   ],
   "note": "Over any commutative ring with conjugation, symmetric and three-phase."
  },
  {
   "property": "C22",
   "status": "proved",
   "theorems": [
    "C22_factors",
    "C22_solves",
    "C22_refused",
    "C22_refined",
    "C22_network",
    "C22_dense",
    "scalar_laws"
   ],
   "note": "Over any block ring with exact in-block operations. With pivot perturbation the result is only an accepted iterate (C22_refined)."
  },
  {
   "property": "C23",
   "status": "proved",
   "theorems": [
    "C23_factors",
    "C23_solves",
    "C23_inverse",
    "C23_regular",
    "C23_blocks"
   ],
   "note": "Every field and block size, every choice of a largest entry; C23_blocks makes it an instance of C22."
  },
  {
   "property": "C24",
   "status": "proved",
   "theorems": [
    "C24_merged",
    "C24_links",
    "C24_energised"
   ],
   "note": "Node merging and link bookkeeping for every grid; C24_energised relates the reduced grid to the user's grid."
  },
  {
   "property": "C25",
   "status": "partial",
   "theorems": [
    "C25_balance_partial",
    "C25_forest",
    "C25_outwards",
    "C25_cycle_refuted"
   ],
   "note": "Proved when the elimination never merges away a node that carries a contracted link: all acyclic link graphs, and all connected link graphs whose links are listed from one node outwards. A link graph with parallel links is unbalanced otherwise (witness)."
  },
  {
   "property": "C26",
   "status": "partial",
   "theorems": [
    "C26_two_port",
    "C26_disconnected",
    "C26_reciprocal",
    "C26_balanced",
    "C26_coupled_phases_partial",
    "C26_coupled_balanced_partial",
    "C26_zero_sequence",
    "C26_zero_sequence_earthed",
    "C26_three_winding",
    "C26_half_open_refuted",
    "C26_untransposed_refuted"
   ],
   "note": "Proved for lines, links, generic branches and transformers over any field with conjugation (the algebraic numbers are shown to be one). A line given by matrices is covered only without small shunt entries: open at one side its shunt is dropped if one entry is small (witness), and untransposed its positive sequence admittance is miscalculated (witness). Non-zero shunt admittances below the tolerance are excluded."
  },
  {
   "property": "C27",
   "status": "proved",
   "theorems": [
    "C27_taps",
    "C27_clocks"
   ],
   "note": ""
  },
  {
   "property": "C47",
   "status": "partial",
   "theorems": [
    "C47_interpolation",
    "C47_tap_voltage",
    "C47_star",
    "C47_nominal_outside_refuted"
   ],
   "note": "Over any field of characteristic zero. Reactances (square root of the difference of squares) are not modelled; with the nominal position outside the range (its default is 0) the value at tap_min is not the given one (witness)."
  },
  {
   "property": "C28",
   "status": "proved",
   "theorems": [
    "C28_terminates"
   ],
   "note": "The power flow calculation is an arbitrary stateful function that may fail at any call."
  },
  {
   "property": "C29",
   "status": "proved",
   "theorems": [
    "C29_restored",
    "C29_in_range"
   ],
   "note": "Tap limits are given (not -128), and an update by id finds the transformers."
  },
  {
   "property": "C30",
   "status": "proved",
   "theorems": [
    "C30_reported",
    "C30_acceptable"
   ],
   "note": "C30_acceptable excludes voltages that are not numbers (they are accepted unexamined) and the strategy fast_any, for which only C30_reported holds."
  },
  {
   "property": "C48",
   "status": "partial",
   "theorems": [
    "C48_any",
    "C48_fast_any_partial",
    "C48_reported_in_band",
    "C48_fast_any_refuted",
    "C48_maximum_refuted"
   ],
   "note": "Proved for the strategy any, and for fast_any if a position in the band lies strictly between the ends of the range; fast_any without this and the extreme strategies for a range of two positions are refuted. The extreme strategies: whatever is reported is in the band. Missing: that they report something, and the extreme one, for wider ranges."
  },
  {
   "property": "C34",
   "status": "proved",
   "theorems": [
    "C34_accepted_iff",
    "C34_reason",
    "C34_order",
    "C34_calculation"
   ],
   "note": "For every model as created (C46): ids of loads unique, every regulator controls an existing load or generator. A NaN reference voltage disagrees with every other."
  },
  {
   "property": "C38",
   "status": "partial",
   "theorems": [
    "C38_terminates",
    "C38_converged_partial",
    "C38_newton_raphson_terminates",
    "C38_newton_raphson_partial",
    "C38_linear_current",
    "C38_nan_refuted",
    "C38_negative_limit_refuted"
   ],
   "note": "Proved for a limit that is not negative and when no deviation of the last iteration is NaN; both conditions are needed (two refutations). Beyond the property: Newton-Raphson with a finite tolerance ends only after an iteration that checked the reactive power limits."
  },
  {
   "property": "C39",
   "status": "proved",
   "theorems": [
    "C39_equations",
    "C39_linear"
   ],
   "note": "For any solution of the equations the solver prepares. C39_linear is about the reported currents and powers, at buses whose voltage is not zero and where the admittances of several sources do not cancel."
  },
  {
   "property": "C49",
   "status": "proved",
   "theorems": [
    "C49_balance_at_sources",
    "C49_power"
   ],
   "note": "At a bus with a voltage that is not zero and several sources whose admittances do not cancel. Voltage regulators are in C50."
  },
  {
   "property": "C50",
   "status": "partial",
   "theorems": [
    "C50_terminates",
    "C50_unchanged",
    "C50_division",
    "C50_limits_partial",
    "C50_even",
    "C50_clamped",
    "C50_bus_limit",
    "C50_nothing_required_refuted",
    "C50_error_refuted",
    "C50_balance_refuted"
   ],
   "note": "Over exact rationals. The even division, the limits and the balance are proved when every regulator may supply zero; otherwise limits may be left when nothing is required, the calculation may fail and the result may not balance although the limits allow the required power (three witnesses)."
  },
  {
   "property": "C51",
   "status": "proved",
   "theorems": [
    "C51_iteration",
    "C51_fixed_point",
    "C51_linear_agrees"
   ],
   "note": "For any solution of the equations the solver prepares."
  },
  {
   "property": "C40",
   "status": "partial",
   "theorems": [
    "C40_documented_solver",
    "C40_refused_partial",
    "C40_refused_for_the_method",
    "C40_nothing_to_calculate_refuted",
    "C40_default_with_regulator_refuted"
   ],
   "note": "What runs is always the documented solver; an undocumented combination is refused if there is an energised sub-grid (refuted without one). The default method is refused with a voltage regulator although its documented solver is not (refuted)."
  },
  {
   "property": "C41",
   "status": "partial",
   "theorems": [
    "C41_last_call_described",
    "C41_code_zero_iff_success",
    "C41_returned_value",
    "C41_clear",
    "C41_ignoring_call_refuted"
   ],
   "note": "Proved for every call made through the common wrapper; two calls take a handle and ignore it (witness)."
  },
  {
   "property": "C43",
   "status": "partial",
   "theorems": [
    "C43_short_circuit_partial",
    "C43_coupled_source_refuted",
    "C43_two_bolted_refuted",
    "C43_two_ground_refuted"
   ],
   "note": "For any solution of the equations the solver prepares: every fault meets its boundary conditions and the currents balance at every bus and phase, provided a bus has at most one bolted fault, at most one two-phase-to-ground fault with an impedance, and a bolted fault to ground at a bus with sources whose phases are not coupled. Each of the three provisos is needed: without it the statement is refuted. The existence of a solution is that of the sparse factorisation (C22)."
  },
  {
   "property": "C44",
   "status": "proved",
   "theorems": [
    "C44_phases",
    "C44_accepted",
    "C44_rejected_kept_refuted"
   ],
   "note": "Creation and any sequence of accepted updates; beyond the property, a rejected update leaves its values in the component, which is refuted as a separate finding."
  },
  {
   "property": "C46",
   "status": "proved",
   "theorems": [
    "C46_created_iff_well_formed"
   ],
   "note": ""
  },
  {
   "property": "C35",
   "status": "proved",
   "theorems": [
    "C35_accepted",
    "C35_cover",
    "C35_individual",
    "C35_slice",
    "C35_slice_empty",
    "C35_columnar",
    "C35_store",
    "C35_uniform",
    "C35_uniform_empty_refuted"
   ],
   "note": "For every dataset built by calls of the API over arrays as long as declared. Beyond the property: the check whether scenarios have equal sizes reads outside the offsets for a batch of no scenarios (witness)."
  },
  {
   "property": "C36",
   "status": "proved",
   "theorems": [
    "C36_acyclic",
    "C36_link",
    "C36_refused_unchanged"
   ],
   "note": "For every sequence of creations, links and destructions, also when a new dataset takes the place of a destroyed one. That a link is accepted or refused needs that the chain has no pointer to a destroyed dataset, which is the caller's duty."
  },
  {
   "property": "C42",
   "status": "proved",
   "theorems": [
    "C42_set",
    "C42_get",
    "C42_round_trip",
    "C42_others",
    "C42_refused",
    "C42_set_nan",
    "C42_create",
    "C42_library_set",
    "C42_library_reset",
    "C42_library_create"
   ],
   "note": "For every stride, offset and size over a memory of bytes; the caller's array must not overlap the records, and for reading its values must not overlap each other. The C42_library theorems discharge the hypotheses on the attributes for every attribute of the tables of C70 (x86-64, the lowest byte first, quiet NaN 0x7ff8000000000000)."
  },
  {
   "property": "C31",
   "status": "partial",
   "theorems": [
    "C31_ranking",
    "C31_supplied_is_ranked",
    "C31_one_rank",
    "C31_rank_is_distance",
    "C31_second_source_refuted",
    "C31_asym_line_refuted",
    "C31_open_control_refuted"
   ],
   "note": "The search terminates and, for every well-formed grid in which the sources at one node have equal status, the groups list every transformer that has a rank exactly once, equal ranks together and in increasing order; it refuses exactly the transformers supplied only from their controlled side. Refuted: a disabled source hides an enabled one at the same node, supply through asymmetric lines and generic branches is not seen, a three-winding transformer with an open controlled side is ranked. A transformer with a shorter supply of its controlled side around it comes last."
  },
  {
   "property": "C32",
   "status": "partial",
   "theorems": [
    "C32_weighted_mean",
    "C32_unusable",
    "C32_least_squares",
    "C32_order",
    "C32_order_decomposed",
    "C32_staged",
    "C32_staged_general",
    "C32_decomposed",
    "C32_magnitude",
    "C32_zero_variance_refuted",
    "C32_staged_refuted"
   ],
   "note": "Weighted mean, least squares and independence of the order proved for every list with positive, possibly infinite, variances, in exact arithmetic. Staged combination proved for one variance, and for several if the part is usable for all or none of them; refuted for mixed finite and infinite variances. A zero variance makes the result unusable (refuted)."
  },
  {
   "property": "C33",
   "status": "proved",
   "theorems": [
    "C33_sum",
    "C33_partly_measured",
    "C33_all_measured",
    "C33_disconnected"
   ],
   "note": "For every grid, all sensors with positive, possibly infinite, variances and every estimated injection, in exact arithmetic; the bus has a connected appliance. The currents conj(s/u) derived from the powers are not modelled."
  },
  {
   "property": "C52",
   "status": "partial",
   "theorems": [
    "C52_used",
    "C52_zero_injection",
    "C52_infinite_current_refuted"
   ],
   "note": "Voltages, injections, shunts and branch powers; current sensors with infinite variance are used as if measured (refuted). The mean angle shift and the measurement counts are not modelled."
  },
  {
   "property": "C45",
   "status": "partial",
   "theorems": [
    "C45_records",
    "C45_unique",
    "C45_nodes",
    "C45_branches",
    "C45_branch3",
    "C45_sources",
    "C45_shunts",
    "C45_loads_and_generators",
    "C45_places",
    "C45_voltage_sensors",
    "C45_power_sensors",
    "C45_node_power_sensors",
    "C45_tap_regulators",
    "C45_voltage_regulators",
    "C45_current_sensors_partial",
    "C45_short_circuit_records",
    "C45_short_circuit",
    "C45_current_sensor_refuted",
    "C45_current_sensor_out_of_range_refuted"
   ],
   "note": "Model of the whole path from created model to result records: component registration, topology, coupling, injections of nodes, records of all component types (steady state and short circuit). Every record is shown to carry the values of its own component's place; the voltage handed to current sensors is taken from the wrong branch in general (refuted). What get_output of a component computes from these values is not part of these theorems."
  },
  {
   "property": "C53",
   "status": "proved",
   "theorems": [
    "C53_power_flow",
    "C53_state_estimation",
    "C53_short_circuit"
   ],
   "note": "For every created model and every parameter functions of the components. Power flow: if the combination of regulators passes the check made before every calculation. Computing the parameters themselves from component attributes is C26, C27, C44 and not part of this property."
  },
  {
   "property": "C37",
   "status": "proved",
   "theorems": [
    "C37_msgpack",
    "C37_msgpack_rows",
    "C37_msgpack_indicated",
    "C37_json",
    "C37_without_elision_refuted",
    "C37_json_exact_refuted"
   ],
   "note": "Every well-formed dataset, single or batch, uniform or not, row based or columnar, any subset of attributes, compact and verbose. msgpack: up to the token stream that msgpack-cxx packs and unpacks; doubles come back the same. JSON: up to the characters of the text, any indent and any earlier calls; doubles come back equal (==), given that printing with 17 digits and reading a number is exact; names contain no quotes or control characters. Refuted: the sign of -0.0 is lost in JSON; the first pass reads the batch size from an object under construction, which is right only if the compiler constructs it in place (the theorems assume that it does)."
  },
  {
   "property": "C54",
   "status": "partial",
   "theorems": [
    "C54_msgpack",
    "C54_json_indent_partial",
    "C54_json_flat_partial",
    "C54_flat_after_indent_refuted"
   ],
   "note": "Proved for msgpack, for JSON with an indent, and for JSON without indent if no indent was asked for before. Refuted: the indent of the kept text is never recorded, so a text without indent asked for after one with indent is the one with indent."
  },
  {
   "property": "C55",
   "status": "proved",
   "theorems": [
    "C55_fixed_point",
    "C55_limits_checked",
    "C55_regulated_voltage",
    "C55_newton_step",
    "C55_start"
   ],
   "note": "For every field of real numbers with a polar form (C55_newton_step: Coq's reals), np = 1 or 3, any solution of the prepared linear equations. Regulated generators have constant power and one regulator each (input.hpp 240 rejects two), and the regulators of a bus agree on the voltage (what check_state_validity enforces). C55_fixed_point needs that the magnitudes kept by the solver are the moduli of the voltages and not zero: a step may make a kept magnitude negative."
  },
  {
   "property": "C56",
   "status": "proved",
   "theorems": [
    "C56_least_squares",
    "C56_unique",
    "C56_exact"
   ],
   "note": "For every field of complex numbers with a conjugation, a modulus and an order of the real ones, any solution of the prepared linear equations (the linear solver is exact, C22). A branch has different buses at its sides; used voltage, branch and shunt measurements have a positive variance, injections a variance of at least zero. Without measured angle the slack bus must not be estimated as zero."
  },
  {
   "property": "C57",
   "status": "partial",
   "theorems": [
    "C57_gauss_newton_partial",
    "C57_stationary_partial",
    "C57_step_found_partial",
    "C57_stationary_found_partial",
    "C57_reference_angle",
    "C57_open_branch_refuted",
    "C57_asymmetric_refuted",
    "C57_local_current_refuted"
   ],
   "note": "Proved over the real numbers with the derivative of the standard library, for every symmetric calculation in which branches with power or current sensors are connected at both sides, and any solution of the prepared linear equations (the linear solver is exact, C22). Missing, because false: asymmetric calculations (C57_asymmetric_refuted, C57_local_current_refuted) and sensors on branches connected at one side (C57_open_branch_refuted)."
  },
  {
   "property": "C58",
   "status": "partial",
   "theorems": [
    "C58_accepted_is_observable_partial",
    "C58_too_few_is_not_observable",
    "C58_radial_is_exact",
    "C58_several_angles_meshed",
    "C58_several_angles_refuted",
    "C58_several_angles_complete_refuted",
    "C58_meshed_complete_refuted",
    "C58_restored_refuted"
   ],
   "note": "Missing, because false: a radial grid with several measured angles can be accepted although it is not observable (C58_several_angles_refuted). The converse is exact only in radial grids with at most one angle; it is refuted for several angles and for meshed grids (C58_several_angles_complete_refuted, C58_meshed_complete_refuted, C58_restored_refuted)."
  },
  {
   "property": "C59",
   "status": "partial",
   "theorems": [
    "C59_branch_power_is_voltage_times_current",
    "C59_branch3_power_is_voltage_times_current",
    "C59_appliance_power_is_voltage_times_current",
    "C59_power_factor",
    "C59_node_balance",
    "C59_specified_power",
    "C59_shunt_power_symmetric",
    "C59_shunt_power_asymmetric",
    "C59_power_residual",
    "C59_voltage_residual",
    "C59_voltage_angle_residual_partial",
    "C59_current_residual_partial",
    "C59_global_current_other_symmetry",
    "C59_branch_loading",
    "C59_branch3_loading",
    "C59_short_circuit_symmetric_results",
    "C59_source_short_circuit_power",
    "C59_source_voltage_factor",
    "C59_fault_impedance",
    "C59_symmetric_voltage_angle_residual_refuted",
    "C59_symmetric_local_current_refuted",
    "C59_asymmetric_local_current_refuted",
    "C59_variance_of_mean_refuted"
   ],
   "note": "Missing, because false: residuals of angles of a symmetric voltage sensor in an asymmetric calculation, and local-angle current sensors in a calculation of the other symmetry (the _refuted theorems). Over real numbers; rounding and NaN are not modelled here."
  },
  {
   "property": "C60",
   "status": "proved",
   "theorems": [
    "C60_selective_inverse",
    "C60_blocks_of_any_inverse",
    "C60_network",
    "C60_blocks",
    "C60_dense"
   ],
   "note": "In exact arithmetic, over any field and for every block size. Blocks of one entry are covered by the model although the code offers the call only for blocks."
  },
  {
   "property": "C61",
   "status": "partial",
   "theorems": [
    "C61_admittance",
    "C61_linear",
    "C61_iterative",
    "C61_newton",
    "C61_newton_deviation",
    "C61_newton_example",
    "C61_deviation",
    "C61_fixed_point",
    "C61_results",
    "C61_branches",
    "C61_shunts",
    "C61_example",
    "C61_algebraic",
    "C61_specified",
    "C61_node",
    "C61_side",
    "C61_loading",
    "C61_appliance",
    "C61_regulator_limit",
    "C61_regulator_limit_asymmetric",
    "C61_regulator_limit_refuted"
   ],
   "note": "Exact arithmetic; the linear solver is taken as exact (C22), and that the asymmetric equations have at most one solution is a hypothesis of the part about all asymmetric results, which C64_balanced and C64_balanced_iterative prove for grids with losses. The claim about the limits of voltage regulators is false: in an asymmetric calculation they act as a third of the given value (finding 76). The Newton-Raphson iterations are therefore treated with regulators without limits, over Coq's reals, if the start gives regulated buses a phase angle; that the Jacobian of the asymmetric iteration is regular is a hypothesis of the part about all asymmetric results. Generic branches have no asymmetric calculation. A power below three times the tolerance may be reported with another power factor."
  },
  {
   "property": "C62",
   "status": "partial",
   "theorems": [
    "C62_reported",
    "C62_line",
    "C62_generic_branch",
    "C62_transformer",
    "C62_zero_sequence",
    "C62_asym_line",
    "C62_wires",
    "C62_sequence_capacitances",
    "C62_three_winding_circuit",
    "C62_three_winding_partial",
    "C62_three_winding_refuted",
    "C62_delta_winding",
    "C62_delta_refuted"
   ],
   "note": "Exact arithmetic over Coq's reals. False for three-winding transformers: with losses the short-circuit voltages uk are not reproduced (finding 77), and a delta winding at side 1 takes zero-sequence active power (finding 78). With one side open a shunt below 1e-8 per unit is left out, a hypothesis. Missing: asymmetric lines with one side open in ohms (C26 has them in per unit), zero sequences other than of two earthed stars (C26, in per unit); links have a fixed per-unit admittance."
  },
  {
   "property": "C63",
   "status": "partial",
   "theorems": [
    "C63_line",
    "C63_link",
    "C63_generic_branch",
    "C63_transformer",
    "C63_three_winding",
    "C63_asym_line",
    "C63_asym_line_symmetric",
    "C63_asym_line_symmetric_refuted",
    "C63_shunt",
    "C63_conservation",
    "C63_no_generation",
    "C63_grid_symmetric",
    "C63_grid_asymmetric"
   ],
   "note": "Exact arithmetic over Coq's reals; division by zero gives zero in the model, and results that are not finite in the code. False for asymmetric lines in symmetric calculations: the averaged admittance of a line with dissipating resistances can have a negative conductance (finding 79); proved if conductors a and b are alike. Three-winding transformers: losses of the three legs not negative, which the losses of the pairs do not imply."
  },
  {
   "property": "C64",
   "status": "partial",
   "theorems": [
    "C64_symmetric",
    "C64_asymmetric",
    "C64_line",
    "C64_link",
    "C64_generic_branch",
    "C64_asym_line",
    "C64_asym_line_symmetric",
    "C64_transformer",
    "C64_transformer_losses",
    "C64_order_symmetric",
    "C64_order_asymmetric",
    "C64_balanced",
    "C64_balanced_iterative",
    "C64_generator_refuted",
    "C64_resonance_refuted"
   ],
   "note": "Exact arithmetic over Coq's reals; that a regular matrix is inverted without a zero pivot is not claimed (C22 relates the factorization to its pivots). False with generators of constant impedance (finding 80) and with sources without resistance (finding 81). A bus counts as connected by branches closed at both sides with a resistance: lines, links, generic branches, lines with a matrix of impedances (whose matrix of resistances is positive; in a symmetric calculation with conductors a and b alike) and transformers with losses; in an asymmetric calculation not the delta side of a transformer with the source at the star side, nor transformers without earthed star, whose zero sequence floats. Missing: a sub-grid connected only by branches without resistance."
  },
  {
   "property": "C65",
   "status": "partial",
   "theorems": [
    "C65_symmetric",
    "C65_asymmetric",
    "C65_order_symmetric",
    "C65_order_asymmetric",
    "C65_balanced",
    "C65_source",
    "C65_fault",
    "C65_negative_resistance_refuted"
   ],
   "note": "Exact arithmetic over Coq's reals. The reported values are an outcome under the conditions of C43: at most one bolted fault at a bus, one two-phase-to-ground fault at a bus unless bolted, and sources that do not couple the phases at a bus with a bolted fault to ground; the first two are also needed for the equations to have one solution. Unique are the voltages and the total fault current of every phase at a bus; how it divides over several faults at a bus is not determined by the conditions if one of them is bolted. False for a fault with a negative resistance (finding 82). Missing: as in C64, a sub-grid connected only by branches without resistance."
  },
  {
   "property": "C66",
   "status": "partial",
   "theorems": [
    "C66_iteration",
    "C66_estimation",
    "C66_results",
    "C66_start",
    "C66_power_sensor",
    "C66_voltage_sensor",
    "C66_current_sensor",
    "C66_current_components",
    "C66_start_measured",
    "C66_asymmetric_current_refuted",
    "C66_start_refuted"
   ],
   "note": "Exact arithmetic. C66_estimation: the asymmetric estimation has estimates after k iterations that are those of the symmetric one, and if its measurements determine the voltages it has no others; the voltages the iterations start from must not be zero. The start is balanced without measured angles (C66_start) and with measured angles at most 60 degrees from the phase shifts of their buses (C66_start_measured), not always otherwise (finding 84), and asymmetric current sensors weigh differently in both calculations (finding 83). Missing: current sensors with an angle relative to the voltage (findings 73 and 74 of C59), asymmetric current sensors, the Newton-Raphson estimation."
  },
  {
   "property": "C67",
   "status": "partial",
   "theorems": [
    "C67_iteration",
    "C67_estimation",
    "C67_results",
    "C67_variances",
    "C67_renumber",
    "C67_example"
   ],
   "note": "Exact arithmetic, iterative linear estimation. That the two admittance matrices are those of the same grid is a hypothesis here (C18, C20 and C64_order are about the matrix). That both estimations have estimates is C68_renumbered. Missing: the Newton-Raphson estimation, and rounding, through which the order of elimination does show."
  },
  {
   "property": "C68",
   "status": "partial",
   "theorems": [
    "C68_one_solution",
    "C68_only_then",
    "C68_estimation",
    "C68_renumbered",
    "C68_known",
    "C68_no_exact",
    "C68_symmetric",
    "C68_asymmetric",
    "C68_example"
   ],
   "note": "Exact arithmetic with a decided equality, iterative linear estimation. C68_only_then is the converse, so the two conditions are exactly those for one solution; C68_symmetric and C68_asymmetric derive both for connected grids with losses, over Coq's reals (with the conditions of C64 on branches and shunts). Missing: that every grid that passes observability_check (C58) meets the conditions (it does not in general: the check counts sensors, not admittances), the Newton-Raphson estimation, and the pivots of the sparse factorisation in rounded arithmetic."
  },
  {
   "property": "C69",
   "status": "proved",
   "theorems": [
    "C69_report",
    "C69_schedule",
    "C69_batch",
    "C69_sync_refuted",
    "C69_text",
    "C69_text_report",
    "C69_timers",
    "C69_codes"
   ],
   "note": "Exact numbers (the code adds doubles, so totals of durations can differ by rounding; numbers of iterations cannot). Every action on a thread's logger is atomic, which the mutex and the ownership by one thread give; what a scenario logs is a parameter that does not depend on the worker. Outside the claim: an explicit sync() of a thread's logger, which counts it twice (C69_sync_refuted), and copies and moves of a thread's logger, which the code never makes."
  },
  {
   "property": "C70",
   "status": "proved",
   "theorems": [
    "C70_by_name",
    "C70_round_trip",
    "C70_by_position",
    "C70_layout",
    "C70_prefix",
    "C70_conversions",
    "C70_library_members",
    "C70_library_layout",
    "C70_library_names",
    "C70_library_id",
    "C70_library_datasets",
    "C70_library_not_given",
    "C70_described",
    "C70_null"
   ],
   "note": "Sizes and alignments are those of x86-64 (int32 4, int8 1, double 8, three doubles 24 aligned to 8), members are placed by the usual ABI. The tables are copied from the generated headers by tools/gen_metatables.py, which is trusted for the copy; which struct a component uses is written by hand from component/*.hpp. Pointers that do not point into the meta data are undefined behaviour in the code and outside the claim."
  }
 ]
}
