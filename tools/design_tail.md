## 3. Trusted base

* Coq 8.16.1: kernel, including `vm_compute`; `coq_makefile` and `coqc` as installed. No plugin of our own, no switched-off check.
* Libraries: Coq's standard library (lists, arithmetic, `Q`, `Qcanon`, `SpecFloat`, decimal strings, `Reals`, `Field`, `Lia`, `Lra`, `Psatz`) and
  mathcomp (matrices in DenseLU*, algebraic numbers in TwoPortComplex, NumbersComplex, PowerFlowExamples).
* Axioms: `C55_newton_step`, the examples of C55 and the theorems of C57 and C59 and those of C61 in SI units (BalancedUnits.v) and about Newton-Raphson (BalancedNewton*.v) and of C62 (Ratings*.v) and C63 (Losses*.v, apart from `C63_conservation`) and C64 (Solvable*.v) and C65 (ShortSolvable*.v) and the theorems of C66 about sensors (BalancedSensors.v) and of C68 about grids with losses (EstimateGrid.v) are about Coq's real numbers and use the axioms of the standard library behind them
  (`ClassicalDedekindReals.sig_forall_dec`, `ClassicalDedekindReals.sig_not_dec`, `FunctionalExtensionality.functional_extensionality_dep`,
  `Classical_Prop.classic`). Every other property theorem is "Closed under the global context" (section 5). `vcheck` and `coqchk` list some mathcomp names
  (`Coq.ssr.ssrunder.Under_rel.*`, sealed modules of algC): these are definitions sealed behind a module type of that library.
* The reading of the C++ source: the theorems are about the model. No code of the project was built or run. Each definition names
  the lines it was read from.
* Contracts of what is called but not modelled, stated as hypotheses or parameters of the theorems:
  * `std::sort` and relatives return a sorted permutation, stable where the code asks for a stable sort (`sort_contract`, `sorts`);
  * the pivot search returns a largest entry (`picks_biggest`), `cabs` is any modulus;
  * the linear solve inside a short circuit or power flow calculation returns a solution of the prepared equations (`solves`);
    that the factorisation does so in exact arithmetic is C22 and C23;
  * the power flow inside the tap search is an arbitrary stateful function that may fail;
  * msgpack-cxx packs and unpacks tokens without loss; nlohmann::json reads the JSON grammar; printing a double with 17 digits and
    reading it gives the same double, printing a double with an integral text gives an equal integer (`text_laws`);
  * thread scheduling: any interleaving of worker steps, each step atomic (data races between steps on different memory are not an issue;
    C09 shows that workers write disjoint places).
* Exact arithmetic in place of double precision except where stated: rounding, overflow and the effect of near-singular matrices are
  outside the model. C07_rounding_refuted shows one consequence.

## 4. What is modelled and what is not

Modelled, by area (header file and model file):

| code | model |
|------|-------|
| container.hpp, main_core/input.hpp | Container, Registration |
| common/grouped_index_vector.hpp, index_mapping.hpp | GroupedIdx |
| component/*.hpp: attributes that updates change, update, inverse | Component |
| main_core/update.hpp, job_adapter.hpp (lookup and records) | UpdateData |
| main_model_impl.hpp: update, restore, caches, prepare_solvers | MainModel, Copy |
| job_dispatch.hpp, batch part of job_adapter.hpp | JobDispatch, Batch |
| C-API/model.cpp, handle.hpp, handle.cpp, buffer.cpp, dataset.cpp | MultiDim, Calculation, Handle, Buffers, Datasets |
| topology.hpp, sparse_ordering.hpp, supernodes.hpp | Topology, Coupling, SparseOrdering, Supernodes |
| main_core/topology.hpp, output.hpp, state_queries.hpp, math_output_queries.hpp, topological_node_output.hpp | Registration, Output |
| main_core/calculation_input_preparation.hpp | CalcInput |
| math_solver/y_bus.hpp | YBus |
| math_solver/sparse_lu_solver.hpp (factorisation, solve, refinement, selective inverse) | SparseLU, DenseLU, SelInv |
| math_solver/{linear_pf,iterative_current_pf,short_circuit}_solver.hpp, common_solver_functions.hpp | PowerFlow, ShortCircuit, ReactivePower |
| math_solver/iterative_linear_se_solver.hpp | LinearSE; loop control Calculation |
| math_solver/newton_raphson_pf_solver.hpp | NewtonRaphson; reactive power limits also ReactivePower, loop control Calculation |
| math_solver/newton_raphson_se_solver.hpp | NewtonSE; loop control Calculation |
| math_solver/observability.hpp | Observability |
| math_solver/measured_values.hpp, common/statistics.hpp | MeasuredValues, Statistics, SensorVariance |
| link_solver.hpp | LinkSolver |
| component/{branch,line,link,generic_branch,asym_line,transformer,three_winding_transformer}.hpp: admittances, taps | TwoPort, Taps |
| the constructors of these: from ohms, farads and nameplate values to per-unit admittances; component/line_utils.hpp | Ratings |
| component/fault.hpp | ShortCircuit |
| component/*.hpp: parameters from SI units, get_output, get_sc_output | Units |
| optimizer/tap_position_optimizer.hpp | TapSearch, TapRank |
| calculation_preparation.hpp, math_solver_dispatch | Calculation |
| auxiliary/dataset.hpp, serialization/*.hpp | Datasets, Serial, Json |
| common/{logging,calculation_info,text_logger,multi_threaded_logging,timer}.hpp | Logging |
| auxiliary/{meta_data,meta_data_gen,input,update,output}.hpp, auxiliary/meta_gen/*.hpp, C API meta_data.cpp | MetaData, MetaTables |

Not modelled: the
Python package, the build, memory allocation failure. Section 2 lists, per
property, which of the remaining code is a parameter.

## 5. Assumptions of the theorems

`Print Assumptions` is run on every property theorem during the build (in the `*Props.v` and `*Examples.v` files). The output is
"Closed under the global context" for every one of them, except `C55_newton_step` and the theorems of C57 and C59 and those of BalancedUnits.v and BalancedNewton*.v and of C62, C63 (apart from `C63_conservation`), C64 and C65 and of BalancedSensors.v and EstimateGrid.v with (some of) the four axioms of section 3 (`C57_reference_angle` needs only `sig_forall_dec` and
`functional_extensionality_dep`). The hypotheses of each theorem
are visible in its statement; an `Example` beside it meets them.

## 6. Findings

Each was found while modelling. Those with a theorem have a concrete witness in the model; the others were only read.

| no. | finding | theorem |
|-----|---------|---------|
| 1 | a regulator update without status switches the regulator on | C06_regulator_status_refuted, C07_regulator_status_refuted |
| 2 | values that the base model lacks (NaN) are not restored after a scenario | C07_missing_base_value_refuted |
| 3 | restoring a value through a conversion (rated value times, divided by) rounds | C07_rounding_refuted |
| 4 | permanent updates with partly missing ids read out of range | C12_permanent_update_unchecked_refuted |
| 5, 20 | a copied model keeps callbacks into the original; results then depend on threading | C14_copy_results_refuted, C14_no_access_refuted, C09_threading_refuted |
| 6 | link solver loses balance when a contracted parallel link is merged away | C25_cycle_refuted |
| 7 | an exception with empty text counts as success of a scenario | C10_empty_message_refuted |
| 8 | a disabled source hides an enabled one at the same node in the ranking of transformers | C31_second_source_refuted |
| 9 | the ranking does not see asymmetric lines and generic branches | C31_asym_line_refuted |
| 10 | undoing several records for one fault throws | C07_fault_records_refuted |
| 11 | a NaN deviation counts as convergence | C38_nan_refuted |
| 12 | multi-dimensional batch: failed outer updates get wrong indices | C11_wrong_index_refuted |
| 13 | multi-dimensional batch: failures outside the last row are lost | C11_failures_lost_refuted, C11_silent_failure_refuted |
| 14 | output dataset: batch size is not compared with that of the update dataset | read only |
| 15 | PGM_get_indexer with an unknown component reports no error | read only |
| 17 | the default method is refused with a voltage regulator | C40_default_with_regulator_refuted |
| 21 | new source impedances do not reach kept factorised matrices | C13_source_impedance_refuted |
| 22 | a failure of the base model refuses the whole batch | C10_base_refused_refuted |
| 24 | a batch dataset without components is calculated once | C08_empty_dataset_refuted |
| 25 | two API calls ignore their handle | C41_ignoring_call_refuted |
| 26 | minimum degree ordering of several isolated vertices | C18_two_isolated_refuted |
| 29 | links: the flow solver is not called; lookups by user node number index topological nodes in two places | read only |
| 30 | line given by matrices, open at one side: a small shunt entry drops the whole shunt | C26_half_open_refuted |
| 31 | untransposed line: positive sequence admittance miscalculated | C26_untransposed_refuted |
| 32 | nominal tap position outside the range of taps | C47_nominal_outside_refuted |
| 33 | reduction of a matrix of four conductors uses the transposed product | read only |
| 34 | a three-winding transformer with an open controlled side is ranked | C31_open_control_refuted |
| 35 | tap search fast_any fails although a tap position is in the band | C48_fast_any_refuted |
| 36 | tap search for extreme positions fails in the same way | C48_maximum_refuted |
| 37 | linear tap search accepts NaN voltages | read only |
| 38 | two bolted faults at one bus | C43_two_bolted_refuted |
| 39 | two two-phase-to-ground faults at one bus | C43_two_ground_refuted |
| 40 | a bolted fault at a bus with a source whose phases are coupled | C43_coupled_source_refuted |
| 41 | a rejected fault update keeps its values | C44_rejected_kept_refuted |
| 42 | regulators leave their limits when no reactive power is required | C50_nothing_required_refuted |
| 43 | calculation error although the limits allow the required power | C50_error_refuted |
| 44 | a negative iteration limit returns an unconverged result | C38_negative_limit_refuted |
| 45 | without an energised sub-grid an invalid method is accepted | C40_nothing_to_calculate_refuted |
| 46 | Newton-Raphson with an infinite tolerance ends without checking reactive power limits | read only |
| 47 | clamped regulators are not reset between runs (masked) | read only |
| 48 | clamping at both sides leaves the division unbalanced | C50_balance_refuted |
| 50 | check for equal sizes reads out of range for a batch of no scenarios | C35_uniform_empty_refuted |
| 51 | PGM_create_buffer accepts a negative size | read only |
| 52 | a zero standard deviation makes the combined measurement unusable | C32_zero_variance_refuted |
| 53 | a current sensor with infinite standard deviation counts as a measurement | C52_infinite_current_refuted |
| 54 | combining in stages differs with mixed finite and infinite variances | C32_staged_refuted |
| 55 | the voltage for a current sensor's result is taken from another branch, or out of range | C45_current_sensor_refuted, C45_current_sensor_out_of_range_refuted |
| 56 | voltage regulator parameters are numbered among all regulators (masked by a check) | Example regulators_allowed_needed |
| 57 | the deserializer reads the batch size from an object under construction | C37_without_elision_refuted |
| 58 | the indent of the kept JSON text is never recorded | C54_flat_after_indent_refuted |
| 59 | an entry in "attributes" for a component without data is refused | Example unused_attributes_refused |
| 60 | the sign of -0.0 is lost in JSON | C37_json_exact_refuted |
| 61 | Newton-Raphson: a step may make the magnitude it keeps for a voltage negative (v += v dv, no check); a load of constant current is then iterated with the sign of its power changed, but reported with the modulus | hypothesis of C55_fixed_point; read only |
| 62 | Newton-Raphson state estimation, asymmetric: the derivatives of a measurement are not transposed before they are multiplied by the weights (transpose_multiply_weight), so the estimate is not that of weighted least squares | C57_asymmetric_refuted |
| 63 | Newton-Raphson state estimation: power and current sensors on a branch that is connected at one side only are ignored; the linear state estimation uses them | C57_open_branch_refuted |
| 64 | Newton-Raphson state estimation, asymmetric: a local current is divided by the voltage magnitudes of the columns instead of the row, wrong when the phases differ in magnitude | C57_local_current_refuted |
| 65 | Newton-Raphson state estimation, asymmetric: the derivative of a shunt's power by the magnitude of its own phase is taken from sum_row(nl) instead of f / v, wrong when the phases differ in magnitude | read only |
| 66 | Newton-Raphson state estimation: the multipliers of injections without variance are added to the right-hand side with the sign that makes them double in every iteration; the voltages do not depend on them | read only |
| 67 | Observability check: in a radial grid with several measured angles the sensor of the angle of the next bus is spent for a branch, although a voltage sensor does not determine the flow of a branch whose other end is not measured. A grid that is not observable is accepted, and then solved with a perturbation | C58_several_angles_refuted |
| 68 | Observability check: in a radial grid with several measured angles an observable grid is refused | C58_several_angles_complete_refuted |
| 69 | Observability check: the search of a spanning tree in a meshed grid is a heuristic; observable grids are refused | C58_meshed_complete_refuted |
| 70 | Observability check: after a search without success the statuses are restored from the first modification to the last, so that a status that was modified twice is not restored; an observable grid is refused because of it | C58_restored_refuted |
| 71 | Observability check: the number of injections is an `int8_t`; with more than 127 measured injections the early acceptance is missed. No wrong acceptance results | wrap8 in Observability; injections_observe |
| 72 | Voltage sensors: a symmetric sensor with an angle in an asymmetric state estimation compares its one angle with the angle of every phase; an exact measurement has angle residuals of 120 degrees in phases b and c | C59_symmetric_voltage_angle_residual_refuted |
| 73 | Current sensors with local angle: a symmetric sensor in an asymmetric state estimation is turned by 120 degrees from phase to phase, although the angle between voltage and current is the same in all phases; the measurement that reaches the solver is wrong in phases b and c (it stands for equal currents in the three phases) | C59_symmetric_local_current_refuted |
| 74 | Current sensors with local angle: an asymmetric sensor in a symmetric state estimation is taken by the positive sequence of its local phasors, which is zero when the three phases agree; the estimation is told that no current flows | C59_asymmetric_local_current_refuted |
| 75 | Power sensors: the mean of the three measured powers of an asymmetric sensor in a symmetric calculation gets the mean of the variances, three times the variance of the mean; current sensors and common/statistics.hpp divide by 3, so weights of the two kinds do not match | C59_variance_of_mean_refuted |
| 76 | Voltage regulators: q_min and q_max are divided by the three-phase base power also in an asymmetric calculation, but are compared with, and set as, the sum of the per-unit values of the phases, whose base is a third of that; so in an asymmetric calculation the limits act as a third of the given reactive power (component/voltage_regulator.hpp calc_param) | C61_regulator_limit_refuted, C61_regulator_limit_asymmetric |
| 77 | Three-winding transformers: uk of the three legs are worked out by adding and subtracting the short-circuit voltages as numbers, and pk by itself; the impedances of two legs in series then do not have the modulus that uk_12 (uk_13, uk_23) asks for, unless the losses are zero (component/three_winding_transformer.hpp calculate_uk) | C62_three_winding_refuted |
| 78 | Three-winding transformers: the first leg is always a transformer between two earthed stars, so the magnetising branch takes zero-sequence current from side 1, active power included, also if winding 1 is a delta (component/three_winding_transformer.hpp convert_to_two_winding_transformers) | C62_delta_refuted; compare C62_delta_winding |
| 79 | Asymmetric lines in symmetric calculations: because the average of the couplings takes the one between b and c twice and leaves out the one between a and c, a line whose resistances dissipate whatever the currents can get a negative conductance and then generates active power (common/matrix_utils.hpp average_of_off_diagonal_of_matrix, component/asym_line.hpp sym_calc_param) | C63_asym_line_symmetric_refuted; compare C63_asym_line, C63_asym_line_symmetric |
| 80 | Linear power flow: a generator of constant impedance is a negative conductance; where it cancels the conductance of the source the equations have no solution, although the source has a resistance and nothing else is wrong with the grid (math_solver/common_solver_functions.hpp add_linear_loads) | C64_generator_refuted; compare C64_symmetric, C64_asymmetric |
| 81 | A source without resistance (rx_ratio 0) in resonance with a capacitive shunt: no solution, although nothing in the grid generates active power (component/source.hpp, math_solver/common_solver_functions.hpp add_sources) | C64_resonance_refuted; compare C64_symmetric |
| 82 | A fault with a negative resistance, which the constructor accepts (only the validation of the Python package rejects it), can cancel the admittance of the source: no solution (component/fault.hpp calc_param, math_solver/short_circuit_solver.hpp) | C65_negative_resistance_refuted; compare C65_symmetric, C65_asymmetric, C65_fault |
| 83 | Asymmetric current sensors: with a balanced reading the variance in a symmetric calculation is a third of that of each phase in an asymmetric calculation (the variance of a mean), whereas asymmetric power sensors take the mean of the variances and asymmetric voltage sensors keep theirs; so the same sensors are weighted differently in both calculations (common/statistics.hpp PolarComplexRandVar, component/power_sensor.hpp) | C66_asymmetric_current_refuted; compare C66_power_sensor, C66_current_sensor |
| 84 | The state estimation starts from the mean of the measured angles, each between -180 and 180 degrees, taken for every phase apart: for balanced voltages with -30 and -90 degrees in phase a, phase b gets 0 instead of 180 degrees, and the start is not balanced (math_solver/measured_values.hpp process_voltage_measurements) | C66_start_refuted; compare C66_start |
| 85 | sync() of a thread's logger merges it into the parent and keeps its data; the destructor merges the same data again, so a logger that is synchronised by hand counts twice (common/multi_threaded_logging.hpp 46-53; nothing in the code calls it) | C69_sync_refuted; compare C69_report |
| 86 | The codes 0100 and 0200 of two log events are octal: a text log shows Tag:64 and Tag:128 (common/logging.hpp 19-20) | read; the model has 64 and 128, C69_codes |
| 87 | Move assignment of a thread's logger takes the parent of the source away, and the destructor of the source then uses a null pointer; the data of the target is dropped without being merged (common/multi_threaded_logging.hpp 39-45; nothing in the code does it) | read only |
| 88 | The time for recovering from a bad scenario is logged as a copy of the model; the events recover_from_bad and scenario_exception are never logged (job_dispatch.hpp 117-121) | read only |
| 89 | PGM_meta_n_datasets does not touch the handle, unlike all other meta data functions: the error of an earlier call stays in it (power_grid_model_c/src/meta_data.cpp 67) | read; the model returns the handle unchanged |

## 7. Testing against wrong programs

`tools/mutate.py` copies `rocq/` outside `/verif`, makes one edit in a model file as a realistic bug would, rebuilds and records in
`seeded/LOG.jsonl` the definition, the edit, the claim it breaks, which theorems failed and which were tightened. An edit that nothing
notices is either harmless (then it is noted) or leads to a tighter statement.
