{"id": "C01", "title": "Component ids are globally unique", "statement": "Creating a model from an input dataset succeeds only if all component ids are pairwise different over all component types; the first repeated id is reported as an id conflict. After a successful creation every given id resolves to exactly the component it was given for, and no other id resolves.", "quantifier": "every list of components of every type, in every order of insertion", "why_tests_cant": "A test tries a handful of id lists; the claim is about every insertion history over an unbounded id space and all component types.", "anchors": ["power_grid_model_c/power_grid_model/include/power_grid_model/container.hpp: emplace, get_idx_by_id, set_construction_complete", "power_grid_model_c/power_grid_model/include/power_grid_model/main_core/input.hpp: add_component"]}
{"id": "C02", "title": "PGM_get_indexer returns the input position of each id", "statement": "Looking up a list of ids for a component type returns, for each id, the position that component had in the input data for that type. An unknown id gives IDNotFound, an id of another component type gives IDWrongType.", "quantifier": "every model contents and every queried id list", "why_tests_cant": "Finite tests cannot cover all insertion orders, types and ids; a wrong hit on one id silently corrupts results.", "anchors": ["power_grid_model_c/power_grid_model/include/power_grid_model/container.hpp: get_idx_by_id", "power_grid_model_c/power_grid_model/include/power_grid_model/main_model_impl.hpp: get_indexer", "power_grid_model_c/power_grid_model_c/src/model.cpp: PGM_get_indexer"]}
{"id": "C03", "title": "Sequence numbers enumerate components without gaps", "statement": "For every base type (for example all branches), the sequence number is a bijection between the stored components of that base type and 0..n-1, ordered by component type and then by input order; converting an index to a sequence number and back is the identity.", "quantifier": "every model contents, every component, every sequence number below the size", "why_tests_cant": "The number of components per type is unbounded and the mixed-type offsets only go wrong for particular combinations of empty and non-empty types.", "anchors": ["power_grid_model_c/power_grid_model/include/power_grid_model/container.hpp: get_seq, get_idx_2d_by_seq, get_start_idx, set_construction_complete, size_per_vector"]}
{"id": "C04", "title": "Dense and sparse groupings describe the same groups", "statement": "The two encodings of a grouping of consecutive objects (one group number per object, or one offset per group) are equivalent: encoding then decoding gives back the data, both report the same element range for every group and the same group for every element.", "quantifier": "every non-decreasing group vector and every number of groups, including empty groups", "why_tests_cant": "Empty leading, trailing and repeated groups interact with upper_bound/equal_range; tests sample only a few layouts.", "anchors": ["power_grid_model_c/power_grid_model/include/power_grid_model/common/grouped_index_vector.hpp: sparse_encode, sparse_decode, SparseGroupedIdxVector, DenseGroupedIdxVector"]}
{"id": "C05", "title": "Objects are grouped per bus by a stable sort", "statement": "Building the mapping from object to bus yields a permutation of the objects that is sorted by bus and keeps the original order inside a bus, and the counting-sort and the comparison-sort implementations give the same result, so the choice between them (made on sizes) is not observable.", "quantifier": "every assignment of objects to buses and every number of buses", "why_tests_cant": "The implementation switches algorithm on problem size; equality of both on all inputs cannot be enumerated.", "anchors": ["power_grid_model_c/power_grid_model/include/power_grid_model/index_mapping.hpp: build_sparse_mapping, build_dense_mapping, build_dense_mapping_comparison_sort, build_dense_mapping_counting_sort"]}
{"id": "C06", "title": "Updates change exactly the attributes that are given", "statement": "A permanent update sets every attribute that is present in the update record, leaves every attribute that is not available (NA/NaN) as it was, leaves components that are not addressed untouched, and for repeated records of one component the last given value wins.", "quantifier": "every component type, every state, every sequence of update records", "why_tests_cant": "There are exponentially many subsets of NA attributes per record and unboundedly many record sequences.", "anchors": ["power_grid_model_c/power_grid_model/include/power_grid_model/component/branch.hpp: Branch::update", "power_grid_model_c/power_grid_model/include/power_grid_model/component/regulator.hpp: Regulator::set_status", "power_grid_model_c/power_grid_model/include/power_grid_model/component/transformer_tap_regulator.hpp", "power_grid_model_c/power_grid_model/include/power_grid_model/component/voltage_regulator.hpp", "power_grid_model_c/power_grid_model/include/power_grid_model/main_core/update.hpp: update_component"]}
{"id": "C07", "title": "Undoing a scenario restores the base model", "statement": "After the update of a batch scenario has been applied and undone, the model is in the state it had before, for every attribute of every component, so nothing of a scenario leaks into the next one.", "quantifier": "every base state, every list of update records, including several records for one component", "why_tests_cant": "The leak only shows for particular combinations of NA values in the base state, in the update, and of later scenarios on the same thread.", "anchors": ["power_grid_model_c/power_grid_model/include/power_grid_model/main_core/update.hpp: update_inverse", "power_grid_model_c/power_grid_model/include/power_grid_model/main_model_impl.hpp: update_component, restore_components", "power_grid_model_c/power_grid_model/include/power_grid_model/component/branch.hpp: Branch::inverse", "power_grid_model_c/power_grid_model/include/power_grid_model/component/load_gen.hpp: inverse"]}
{"id": "C08", "title": "Every batch scenario is calculated exactly once", "statement": "For every threading option, hardware concurrency and batch size the scenarios handed to the workers form a partition of 0..n-1: each scenario is calculated exactly once and no index outside the batch is touched.", "quantifier": "every batch size, every value of the threading option (negative, zero, one, larger than the batch) and every hardware concurrency", "why_tests_cant": "Sizes and thread counts are unbounded, and the split depends on all three numbers.", "anchors": ["power_grid_model_c/power_grid_model/include/power_grid_model/job_dispatch.hpp: n_threads, job_dispatch, single_thread_job"]}
{"id": "C09", "title": "Batch results do not depend on threading or on other scenarios", "statement": "The output of a scenario in a batch equals the output of a single calculation on the base model with that scenario's update applied, whatever the threading option, whatever the interleaving of the workers and whatever the other scenarios contain.", "quantifier": "every base model, batch, threading option, hardware concurrency and interleaving of worker steps", "why_tests_cant": "The number of interleavings is exponential; leaks between scenarios need a specific order on one worker.", "anchors": ["power_grid_model_c/power_grid_model/include/power_grid_model/job_dispatch.hpp: batch_calculation, single_thread_job, call_with", "power_grid_model_c/power_grid_model/include/power_grid_model/job_adapter.hpp: setup_impl, winddown_impl"]}
{"id": "C10", "title": "Failed scenarios are reported exactly and stay isolated", "statement": "If some scenarios of a batch fail, the call reports a batch error whose list of failed scenarios is exactly the ascending list of scenarios that failed, each with its own message, and every other scenario has the result it would have had without the failures; if none fails no error is reported.", "quantifier": "every batch and every pattern of failures in update, calculation and undo", "why_tests_cant": "There are 2^n failure patterns per batch, combined with all worker splits.", "anchors": ["power_grid_model_c/power_grid_model/include/power_grid_model/job_dispatch.hpp: call_with, scenario_exception_handler, handle_batch_exceptions", "power_grid_model_c/power_grid_model/include/power_grid_model/job_adapter.hpp"]}
{"id": "C11", "title": "Multi-dimensional batches compute the Cartesian product and report all failures", "statement": "A calculation with chained batch datasets writes at output position (i*stride + j) the result of the base model updated with scenario i of the first dimension and then with combination j of the others; all failing combinations are reported with their own index.", "quantifier": "every number of dimensions, every batch size per dimension and every failure pattern", "why_tests_cant": "Index arithmetic over an unbounded number of dimensions and an error path through nested handlers.", "anchors": ["power_grid_model_c/power_grid_model_c/src/model.cpp: calculate_multi_dimensional_impl, MDBatchExceptionHandler, get_stride_size", "power_grid_model_c/power_grid_model_c/src/handle.hpp: call_with_catch, clear_error"]}
{"id": "C12", "title": "Optional ids and the cached lookup never address a wrong component", "statement": "If a component's update is recognised as independent of the scenario, using the lookup of the first scenario for all scenarios addresses the same components as a lookup per scenario; if ids are omitted, record k addresses the k-th component of that type and this is only accepted when every scenario has exactly one record per component.", "quantifier": "every update dataset (all ids, no ids, some ids, uniform or not) and every model", "why_tests_cant": "Shapes of batch data are unbounded and the shortcut is only taken on a data-dependent condition.", "anchors": ["power_grid_model_c/power_grid_model/include/power_grid_model/main_core/update.hpp: UpdateCompProperties, check_component_independence, validate_update_data_independence, get_component_sequence_impl"]}
{"id": "C13", "title": "Results do not depend on the history of the model object", "statement": "A calculation gives the result that a freshly created model with the same component state would give, whatever updates and symmetric or asymmetric calculations were executed before: cached topology, admittances and solvers never go stale.", "quantifier": "every history of permanent updates, scenario updates, restores and calculations of either symmetry", "why_tests_cant": "Staleness needs a particular order of updates and calculation modes; histories are unbounded.", "anchors": ["power_grid_model_c/power_grid_model/include/power_grid_model/calculation_preparation.hpp: SolversCacheStatus, prepare_solvers, rebuild_topology, reset_solvers", "power_grid_model_c/power_grid_model/include/power_grid_model/main_model_impl.hpp: update_component", "power_grid_model_c/power_grid_model/include/power_grid_model/main_core/y_bus.hpp"]}
{"id": "C14", "title": "A copy of a model is independent of the original", "statement": "After PGM_copy_model, updates of, calculations on and destruction of one of the two models neither change nor access the state of the other one.", "quantifier": "every history of operations on original and copies", "why_tests_cant": "Aliasing defects are invisible in results until the original is destroyed; memory errors need specific lifetimes.", "anchors": ["power_grid_model_c/power_grid_model/include/power_grid_model/main_model.hpp: MainModel copy constructor", "power_grid_model_c/power_grid_model/include/power_grid_model/calculation_preparation.hpp: prepare_solvers", "power_grid_model_c/power_grid_model/include/power_grid_model/math_solver/y_bus.hpp: register_parameters_changed_callback"]}
{"id": "C15", "title": "A node is energised exactly when it is reachable from a connected source", "statement": "A node takes part in the calculation if and only if a path of closed branches (both ends connected) leads from it to a node with an enabled source, and two energised nodes are in the same sub-grid if and only if they are connected by such a path. Each energised node gets exactly one bus number in its sub-grid.", "quantifier": "every grid graph, all branch, three-winding and source statuses", "why_tests_cant": "Graphs are unbounded; search order and reuse of visited marks matter.", "anchors": ["power_grid_model_c/power_grid_model/include/power_grid_model/topology.hpp: build_topology, build_sparse_graph, dfs_search, reorder_node"]}
{"id": "C16", "title": "Phase shifts are accumulated consistently", "statement": "The phase shift of an energised node is the sum of the signed branch phase shifts along the search path from the first source of its sub-grid; if the shifts around every loop cancel, it equals the sum along any path.", "quantifier": "every grid graph and phase shift assignment", "why_tests_cant": "Depends on the search tree of an arbitrary graph, including branches crossed backwards.", "anchors": ["power_grid_model_c/power_grid_model/include/power_grid_model/topology.hpp: GlobalDFSVisitor, dfs_search, build_sparse_graph"]}
{"id": "C17", "title": "Every connected object is attached to exactly the right bus", "statement": "After topology analysis each branch with at least one energised connected end, each appliance at an energised node and each sensor of such an object has exactly one position in exactly one sub-grid, the positions are dense, and following the position back leads to the bus of the object's own node; all other objects are marked as disconnected.", "quantifier": "every grid, every set of objects", "why_tests_cant": "A permutation error shows only for particular group sizes and orders.", "anchors": ["power_grid_model_c/power_grid_model/include/power_grid_model/topology.hpp: couple_branch, couple_object_components, couple_all_appliance, couple_sensors"]}
{"id": "C18", "title": "The elimination order is a permutation with a complete fill-in list", "statement": "The fill-minimising ordering returns each bus exactly once, terminates on every graph, and the fill-ins it reports are exactly those that make the matrix pattern closed under elimination in that order.", "quantifier": "every finite graph", "why_tests_cant": "Closedness is a property of all triples of nodes after an unbounded number of elimination steps.", "anchors": ["power_grid_model_c/power_grid_model/include/power_grid_model/sparse_ordering.hpp: minimum_degree_ordering, remove_vertices_update_degrees, make_clique", "power_grid_model_c/power_grid_model/include/power_grid_model/topology.hpp: reorder_node"]}
{"id": "C19", "title": "The admittance matrix structure is well formed", "statement": "The compressed row structure built for a sub-grid has strictly increasing columns in every row, contains every diagonal entry, is symmetric in pattern, its transpose map is an involution that maps (i,j) to (j,i), and every branch side, shunt and fill-in is assigned to the entry of its own bus pair exactly once.", "quantifier": "every sub-grid topology including parallel branches, open ends and fill-ins", "why_tests_cant": "The structure is built by counting sorts over arbitrary multigraphs.", "anchors": ["power_grid_model_c/power_grid_model/include/power_grid_model/math_solver/y_bus.hpp: YBusStructure, append_element_vector, counting_sort_element"]}
{"id": "C20", "title": "Admittance entries are the sums of their contributions; incremental equals full update", "statement": "Every entry of the admittance matrix equals the sum of the contributions of the branches and shunts incident to its bus pair, and updating only the entries affected by changed parameters gives the same matrix as recomputing everything.", "quantifier": "every topology, every parameter set and every set of changed branches and shunts", "why_tests_cant": "The affected-entry computation is only wrong for certain subsets of changes.", "anchors": ["power_grid_model_c/power_grid_model/include/power_grid_model/math_solver/y_bus.hpp: update_admittance, update_admittance_increment, update_admittance_entries, get_affected_admittance_entries"]}
{"id": "C21", "title": "Kirchhoff's current law holds in the output", "statement": "For every voltage vector the calculated bus injection equals the sum of the calculated branch currents leaving the bus plus the shunt currents at that bus.", "quantifier": "every sub-grid, all admittances and every complex voltage vector", "why_tests_cant": "It is an algebraic identity over all matrices and vectors.", "anchors": ["power_grid_model_c/power_grid_model/include/power_grid_model/math_solver/y_bus.hpp: calculate_injection, calculate_branch_flow, calculate_shunt_flow"]}
{"id": "C22", "title": "The sparse solver solves the linear system", "statement": "If the factorisation does not report a singular matrix, then in exact arithmetic the product of the stored factors is the input matrix and the returned vector solves the system, for any matrix whose pattern is closed under elimination.", "quantifier": "every block matrix with closed symmetric pattern over any field, every right hand side, every block size", "why_tests_cant": "Sizes and patterns are unbounded; in-place overwriting errors show only on some fill patterns.", "anchors": ["power_grid_model_c/power_grid_model/include/power_grid_model/math_solver/sparse_lu_solver.hpp: SparseLUSolver::prefactorize, solve_with_prefactorized_matrix, solve_once"]}
{"id": "C23", "title": "Dense block factorisation is correct", "statement": "The in-place LU factorisation with full pivoting of a diagonal block satisfies P*A*Q = L*U with unit lower triangular L, or reports singularity, and the triangular solves invert it.", "quantifier": "every square matrix over a field, every pivot choice", "why_tests_cant": "Pivot orders are factorial in number.", "anchors": ["power_grid_model_c/power_grid_model/include/power_grid_model/math_solver/sparse_lu_solver.hpp: DenseLUFactor::factorize_in_place"]}
{"id": "C24", "title": "Link-connected nodes are merged and only those", "statement": "Two nodes are merged in one topological node if and only if they are connected by links that are closed at both ends; every node is in exactly one topological node and the forward and backward index maps are inverse to each other.", "quantifier": "every grid and all link statuses", "why_tests_cant": "Connectivity over an arbitrary graph.", "anchors": ["power_grid_model_c/power_grid_model/include/power_grid_model/supernodes.hpp: find_link_connected_components, create_topological_nodes, construct_reduced_topology"]}
{"id": "C25", "title": "Flows through links balance at every node", "statement": "The flows assigned to the links inside a topological node satisfy the power balance at every node of that topological node whenever the external injections sum to zero.", "quantifier": "every connected link graph and every injection vector that sums to zero", "why_tests_cant": "Elimination order on arbitrary multigraphs; parallel links and cycles trigger special paths.", "anchors": ["power_grid_model_c/power_grid_model/include/power_grid_model/link_solver.hpp: reduced_echelon_form, forward_elimination, backward_substitution, compute_loads_link_elements"]}
{"id": "C26", "title": "Branch admittances follow the physical two-port", "statement": "A branch that is disconnected at both sides contributes nothing; a branch connected at one side contributes only the admittance seen from that side with the other side open; without phase shift the two-port is reciprocal; a symmetric branch treated per phase acts on a balanced voltage as its positive sequence admittance.", "quantifier": "every series and shunt admittance, tap ratio and switch status", "why_tests_cant": "Identities over a continuum of parameters.", "anchors": ["power_grid_model_c/power_grid_model/include/power_grid_model/component/branch.hpp: calc_param_y_sym, calc_param_y", "power_grid_model_c/power_grid_model/include/power_grid_model/component/line.hpp", "power_grid_model_c/power_grid_model/include/power_grid_model/component/transformer.hpp: calc_param_y"]}
{"id": "C27", "title": "Tap positions and clock numbers are normalised", "statement": "Whatever is given as input or update, the tap position used by a transformer lies between tap_min and tap_max (in either order), a position inside the range is taken as is, and the clock number used lies in 0..11 and is congruent to the given one modulo 12.", "quantifier": "all int8 values of tap_pos, tap_min, tap_max, tap_nom, clock and all update sequences", "why_tests_cant": "Needs all combinations of reversed ranges and out of range values over all update histories.", "anchors": ["power_grid_model_c/power_grid_model/include/power_grid_model/component/transformer.hpp: tap_limit, set_tap", "power_grid_model_c/power_grid_model/include/power_grid_model/component/three_winding_transformer.hpp", "power_grid_model_c/power_grid_model/include/power_grid_model/component/transformer_utils.hpp", "power_grid_model_c/power_grid_model/include/power_grid_model/common/common.hpp: map_to_cyclic_range"]}
{"id": "C28", "title": "Automatic tap changing terminates", "statement": "The tap search ends after a number of power flow calculations bounded by the tap ranges and the number of ranks, with a result or an error, whatever voltages the power flow returns.", "quantifier": "every set of ranked regulated transformers, every power flow behaviour, every strategy", "why_tests_cant": "Termination has to hold against an arbitrary oracle; tests only see benign power flows.", "anchors": ["power_grid_model_c/power_grid_model/include/power_grid_model/optimizer/tap_position_optimizer.hpp: iterate, RankIteration, BinarySearch, adjust_transformer_bs, adjust_transformer_scan"]}
{"id": "C29", "title": "Automatic tap changing leaves the model as it was", "statement": "After a calculation with automatic tap changing, whether it returned a result or failed, all tap positions stored in the model are those from before the call, and every tap position tried in between lies in the tap range of its transformer.", "quantifier": "every grid, every power flow behaviour including failures at any iteration", "why_tests_cant": "Failure can happen at any step of an unbounded iteration.", "anchors": ["power_grid_model_c/power_grid_model/include/power_grid_model/optimizer/tap_position_optimizer.hpp: optimize, cache_states, update_state"]}
{"id": "C30", "title": "A reported tap position is acceptable", "statement": "If the search with strategy any (linear search) succeeds, then in the returned power flow each regulated voltage lies in its band or the tap is at the end of its range in the direction that would correct it, and the reported tap positions are those the result was calculated with.", "quantifier": "every grid and power flow behaviour", "why_tests_cant": "Quantifies over every oracle response sequence.", "anchors": ["power_grid_model_c/power_grid_model/include/power_grid_model/optimizer/tap_position_optimizer.hpp: iterate, adjust_transformer_scan, produce_output, one_step_control_voltage_up"]}
{"id": "C31", "title": "Regulated transformers are ranked by distance to the source", "statement": "Each enabled regulator's transformer that is fed from an enabled source is ranked by the least number of regulated transformers on a path to a source, transformers of equal distance share a rank and ranks are visited in increasing order.", "quantifier": "every transformer graph", "why_tests_cant": "Shortest paths over arbitrary weighted graphs.", "anchors": ["power_grid_model_c/power_grid_model/include/power_grid_model/optimizer/tap_position_optimizer.hpp: build_transformer_graph, process_edges_dijkstra, get_edge_weights, rank_transformers"]}
{"id": "C32", "title": "Several sensors on one quantity are fused by inverse variance", "statement": "Combining measurements of one quantity yields the inverse-variance weighted mean with variance one over the sum of the inverse variances; the result does not depend on the order of the sensors and combining in stages gives the same result.", "quantifier": "every list of measurements with positive variances, including infinite ones", "why_tests_cant": "An algebraic law over unbounded lists.", "anchors": ["power_grid_model_c/power_grid_model/include/power_grid_model/common/statistics.hpp: combine, combine_magnitude", "power_grid_model_c/power_grid_model/include/power_grid_model/math_solver/measured_values.hpp: combine_measurements"]}
{"id": "C33", "title": "State estimation appliance results add up to the bus injection", "statement": "The powers reported for the loads, generators and sources at a bus add up to the estimated injection of that bus, in the measured, partly measured and unmeasured case.", "quantifier": "every set of appliances, statuses, measurements and bus injection", "why_tests_cant": "An identity over all measurement configurations.", "anchors": ["power_grid_model_c/power_grid_model/include/power_grid_model/math_solver/measured_values.hpp: calculate_load_gen_source, calculate_over_determined_injection, calculate_non_over_determined_injection"]}
{"id": "C34", "title": "Conflicting reference voltages are rejected", "statement": "A calculation is refused exactly when the model has voltage regulators and also a transformer tap regulator, or when two enabled voltage regulators of appliances at one node disagree on the reference voltage, or an enabled voltage regulator controls an appliance that is not of constant power type, or an enabled source is at a node with an enabled voltage regulator; the error names the components in conflict, and the order of components does not matter.", "quantifier": "every model state", "why_tests_cant": "All orders and combinations of sources, regulators and loads at each node.", "anchors": ["power_grid_model_c/power_grid_model/include/power_grid_model/calculation_preparation.hpp: check_state_validity, check_u_ref_per_node, check_load_gen_type, check_sources_and_voltage_regulators"]}
{"id": "C35", "title": "Datasets: a buffer is accepted only if it is consistent, and scenarios partition it", "statement": "A buffer is accepted exactly if its sizes and offsets describe the batch; the per-scenario views are then disjoint, in order, and cover all elements exactly once; taking scenario i, or a slice and then scenario i, gives the same elements; row based and columnar views give the same values.", "quantifier": "every batch size, uniform or offset-based layout and scenario index", "why_tests_cant": "Unbounded sizes and offset vectors.", "anchors": ["power_grid_model_c/power_grid_model/include/power_grid_model/auxiliary/dataset.hpp: add_buffer, check_uniform_integrity, check_non_uniform_integrity, get_span_impl, get_individual_scenario, get_slice_scenario, ColumnarAttributeRange"]}
{"id": "C36", "title": "Chained batch datasets never form a cycle", "statement": "Whatever sequence of calls links batch datasets as next Cartesian product dimension, no cycle can be created, so walking the chain always ends; a call that would close a cycle is refused and changes nothing.", "quantifier": "every sequence of set-next calls on any number of datasets", "why_tests_cant": "Histories of calls are unbounded; a cycle makes every later call hang.", "anchors": ["power_grid_model_c/power_grid_model/include/power_grid_model/auxiliary/dataset.hpp: set_next_cartesian_product_dimension", "power_grid_model_c/power_grid_model_c/src/dataset.cpp: PGM_dataset_const_set_next_cartesian_product_dimension"]}
{"id": "C37", "title": "Serialisation round trip", "statement": "Deserialising what was serialised gives back the same dataset: the same components, elements and attribute values per scenario, in compact and in verbose form, where not available values stay not available.", "quantifier": "every dataset (single or batch, uniform or not, any subset of attributes)", "why_tests_cant": "All shapes of data and attribute subsets.", "anchors": ["power_grid_model_c/power_grid_model/include/power_grid_model/auxiliary/serialization/serializer.hpp", "power_grid_model_c/power_grid_model/include/power_grid_model/auxiliary/serialization/deserializer.hpp"]}
{"id": "C38", "title": "Iterative power flow reports convergence only when converged", "statement": "The iteration stops after at most max_iter iterations; it returns a result only if the last voltage deviation was within the tolerance, otherwise it reports divergence.", "quantifier": "every iteration behaviour (every sequence of deviations, including NaN), every tolerance and limit", "why_tests_cant": "The solver iteration is an arbitrary real sequence.", "anchors": ["power_grid_model_c/power_grid_model/include/power_grid_model/math_solver/iterative_pf_solver.hpp: run_power_flow"]}
{"id": "C39", "title": "The linear power flow solution satisfies the network equations", "statement": "In exact arithmetic the voltages returned by the linear method make the current injected by sources and constant-impedance loads equal to the current drawn by the network at every bus.", "quantifier": "every sub-grid with constant impedance loads", "why_tests_cant": "An algebraic identity over all networks.", "anchors": ["power_grid_model_c/power_grid_model/include/power_grid_model/math_solver/linear_pf_solver.hpp", "power_grid_model_c/power_grid_model/include/power_grid_model/math_solver/common_solver_functions.hpp"]}
{"id": "C40", "title": "Calculation method selection is total and explicit", "statement": "Every combination of calculation type and method either runs the documented solver or is refused with an invalid-method error; no combination silently runs another solver, except that power flow with only constant-impedance loads always uses the linear solver.", "quantifier": "all integer values of calculation type, method and symmetry", "why_tests_cant": "Includes values outside of the enumerations.", "anchors": ["power_grid_model_c/power_grid_model/include/power_grid_model/math_solver/math_solver.hpp", "power_grid_model_c/power_grid_model/include/power_grid_model/calculation.hpp", "power_grid_model_c/power_grid_model_c/src/model.cpp: extract_calculation_options"]}
{"id": "C41", "title": "The error state of a handle describes the last call", "statement": "No exception leaves the C API; after each call the handle describes exactly the outcome of that call, and a successful call leaves no trace of earlier errors.", "quantifier": "every sequence of API calls and outcomes", "why_tests_cant": "Histories are unbounded.", "anchors": ["power_grid_model_c/power_grid_model_c/src/handle.hpp: call_with_catch, clear_error", "power_grid_model_c/power_grid_model_c/src/handle.cpp"]}
{"id": "C42", "title": "Attribute set and get through the C API are inverse", "statement": "Reading an attribute after writing it through PGM_buffer_set_value gives back the written values, other attributes and other elements are unchanged, for every stride, offset and size.", "quantifier": "every buffer content, attribute layout, offset, size and stride", "why_tests_cant": "Address arithmetic over all layouts.", "anchors": ["power_grid_model_c/power_grid_model_c/src/buffer.cpp: buffer_get_set_value", "power_grid_model_c/power_grid_model/include/power_grid_model/auxiliary/meta_data.hpp"]}
{"id": "C43", "title": "Short circuit boundary conditions hold", "statement": "In exact arithmetic the computed short circuit state satisfies the boundary conditions of each fault type at the fault bus and the network equations at all buses.", "quantifier": "every sub-grid, fault type, faulted phase and fault impedance", "why_tests_cant": "Algebraic identities over all networks and faults.", "anchors": ["power_grid_model_c/power_grid_model/include/power_grid_model/math_solver/short_circuit_solver.hpp", "power_grid_model_c/power_grid_model/include/power_grid_model/component/fault.hpp"]}
{"id": "C44", "title": "Fault phases are interpreted as documented", "statement": "For every fault type, an unspecified fault phase means the documented default phase, a supported phase is taken as given and an unsupported combination is rejected at creation and at update.", "quantifier": "all fault types and phases, all update sequences", "why_tests_cant": "All update histories, including partial updates that change only the type or only the phase.", "anchors": ["power_grid_model_c/power_grid_model/include/power_grid_model/component/fault.hpp: get_fault_phase, check_sanity, update"]}
{"id": "C45", "title": "Reported results belong to the right components", "statement": "The result record written for a component is derived from the position of that component in its sub-grid; components outside all energised sub-grids report zero flow and not energised, and records are in input order.", "quantifier": "every model and solution", "why_tests_cant": "A swapped index shows only for particular layouts.", "anchors": ["power_grid_model_c/power_grid_model/include/power_grid_model/main_core/output.hpp", "power_grid_model_c/power_grid_model/include/power_grid_model/main_core/math_output_queries.hpp"]}
{"id": "C46", "title": "A model is created exactly from well-formed input", "statement": "Creating a model succeeds exactly when ids are unique, every reference (end nodes of branches, node of an appliance, measured, regulated and faulted object) points to an existing component of the kind that the reference requires, power and current sensors do not measure links, no object is regulated twice by one type of regulator and no component constructor rejects its own values. No created model has a dangling reference.", "quantifier": "every input dataset, with any number of components of all types", "why_tests_cant": "The set of datasets is infinite and the check order depends on the order of component types.", "anchors": ["power_grid_model_c/power_grid_model/include/power_grid_model/main_core/input.hpp: add_component", "power_grid_model_c/power_grid_model/include/power_grid_model/main_model_impl.hpp: add_components", "power_grid_model_c/power_grid_model/include/power_grid_model/container.hpp: get_item, get_idx_by_id"]}
{"id": "C47", "title": "Tap positions and star equivalents mean what is documented", "statement": "With the nominal position in the tap range, the short-circuit voltage and loss used at the nominal position and at the ends of the range are those given for them and change in proportion to the position in between; each position towards tap_max raises the rated voltage of the tap side by one tap size; the star equivalent of a three-winding transformer has between each two windings the given short-circuit voltage and loss.", "quantifier": "every rated power and voltage, short-circuit value, tap range in either direction and tap position", "why_tests_cant": "Identities over a continuum of parameters and all tap ranges.", "anchors": ["power_grid_model_c/power_grid_model/include/power_grid_model/component/transformer_utils.hpp: tap_adjust_impedance", "power_grid_model_c/power_grid_model/include/power_grid_model/component/transformer.hpp: transformer_params", "power_grid_model_c/power_grid_model/include/power_grid_model/component/three_winding_transformer.hpp: calculate_uk, calculate_pk, convert_to_two_winding_transformers"]}
{"id": "C48", "title": "A tap position inside the band is found if there is one", "statement": "With one regulated transformer, a power flow that works at every tap position and a voltage that rises with each step, the search for a tap position succeeds whenever some position puts the controlled voltage inside the band, and returns such a position; the strategies that ask for the extreme position return the extreme one.", "quantifier": "every tap range, starting position, band and voltage curve, and every strategy", "why_tests_cant": "The search depends on the whole voltage curve and on the starting position; tests sample a few.", "anchors": ["power_grid_model_c/power_grid_model/include/power_grid_model/optimizer/tap_position_optimizer.hpp: iterate, adjust_transformer_scan, adjust_transformer_bs, BinarySearch"]}
{"id": "C49", "title": "Reported power flow currents and powers are consistent", "statement": "Whatever voltages a power flow ends with, the currents reported for the sources, loads and generators of a bus with a source add up to the current the grid takes from the bus, in every phase, however many sources share the bus; every reported power is the voltage times the conjugate of the reported current; and the power of a load or generator is the specified one times 1, the voltage magnitude or its square, by type.", "quantifier": "every grid, voltage, number of sources and loads at a bus and every specified power, symmetric and asymmetric", "why_tests_cant": "An algebraic identity over all parameter values and all divisions of a bus current among sources with different impedances.", "anchors": ["power_grid_model_c/power_grid_model/include/power_grid_model/math_solver/common_solver_functions.hpp: calculate_source_result, calculate_load_gen_result, calculate_pf_result, calculate_multiple_source_result"]}
{"id": "C51", "title": "An iterative current power flow that stands still has solved the power flow", "statement": "After each iteration the grid takes from each bus what its sources give at the new voltages and its loads would take at the previous ones. If an iteration does not change the voltages, every load takes its specified power, every source is its voltage behind its impedance and the reported currents balance at every bus. With constant impedance loads only, the standstill points are exactly the solutions of the linear method.", "quantifier": "every grid, every iterate, symmetric and asymmetric", "why_tests_cant": "A statement about all iterates of all grids.", "anchors": ["power_grid_model_c/power_grid_model/include/power_grid_model/math_solver/iterative_current_pf_solver.hpp: initialize_derived_solver, prepare_matrix_and_rhs", "power_grid_model_c/power_grid_model/include/power_grid_model/math_solver/linear_pf_solver.hpp: run_power_flow"]}
{"id": "C50", "title": "Reactive power of a controlled bus is divided among its regulators as documented", "statement": "The required reactive power of a voltage controlled bus is divided equally among its active regulators; who would pass a limit supplies the limit and the rest is divided among the others; limits hold up to the tolerance and the reported powers balance with the grid whenever the limits allow. If the sum of the limits is exceeded, every regulator supplies its limit and reports it. The division always ends and changes neither active powers nor loads that are not regulated.", "quantifier": "any number of regulators and loads at a bus, all limits given or not, all required powers, symmetric and asymmetric", "why_tests_cant": "The loop depends on how limits interleave over its passes; tests fix a few limit patterns.", "anchors": ["power_grid_model_c/power_grid_model/include/power_grid_model/math_solver/common_solver_functions.hpp: calculate_voltage_regulator_result, allocate_q_iterative_distribution, allocate_q_bus_limit_violated, distribute_q", "power_grid_model_c/power_grid_model/include/power_grid_model/math_solver/newton_raphson_pf_solver.hpp: set_bus_types_and_q_limits, enforce_q_limits, violated_limit"]}
{"id": "C52", "title": "The state estimation uses exactly the usable measurements", "statement": "The state estimation uses, for every bus voltage, bus injection, shunt and branch side, the fused measurement of its sensors if they are usable (finite variance in every component) and the object is connected; without a usable measurement it counts as unmeasured. The injection of a bus is also known if all connected appliances are measured: then the sum of their measurements is used, combined with the direct measurement if there is one; a bus without connected appliances is an exact zero injection. All variances are scaled by one common positive factor.", "quantifier": "every grid, every assignment of sensors to objects, every status of the appliances and all sensor data with positive, possibly infinite, variances", "why_tests_cant": "tests take a few grids with finite variances; which measurement is used depends on the combination of sensors, statuses and infinite variances at every bus", "anchors": ["power_grid_model_c/power_grid_model/include/power_grid_model/math_solver/measured_values.hpp: MeasuredValues, process_bus_objects, combine_appliances_to_injection_measurements, process_one_object, normalize_variance"]}
{"id": "C53", "title": "Every component's parameters reach the solver at its own place", "statement": "For every created model the input prepared for a power flow, state estimation or short circuit calculation contains, for every energised sub-grid, exactly the parameters of the components that take part in it (sources that are switched on, loads, generators, shunts, voltage regulators, sensors of each measured side, active faults): each exactly once, at the position that belongs to the bus, appliance or branch to which the component is attached, with no position left unset or written out of range. Components at nodes without supply and inactive faults contribute nothing.", "quantifier": "every accepted input, every switching state, every assignment of sensors, regulators and faults to objects, and every parameter value", "why_tests_cant": "tests check a few networks; a wrong order or filter exchanges parameters of components only for particular mixtures of types, sub-grids and statuses", "anchors": ["power_grid_model_c/power_grid_model/include/power_grid_model/main_core/calculation_input_preparation.hpp: prepare_input, prepare_power_flow_input, prepare_state_estimation_input, prepare_short_circuit_input", "power_grid_model_c/power_grid_model/include/power_grid_model/calculation_preparation.hpp: check_state_validity", "power_grid_model_c/power_grid_model/include/power_grid_model/main_core/topology.hpp", "power_grid_model_c/power_grid_model/include/power_grid_model/topology.hpp: couple_object_components"]}
{"id": "C54", "title": "What a serializer returns depends only on the dataset and the options of the call", "statement": "The text or data that a serializer returns for a choice of compact or verbose form and of indent is the one that a new serializer of the same dataset returns for that choice, whatever was asked from the serializer before.", "quantifier": "every dataset, every sequence of earlier calls with any options, both formats", "why_tests_cant": "tests call a serializer once or twice; a result that is kept for reuse is wrong only for particular sequences of options", "anchors": ["power_grid_model_c/power_grid_model/include/power_grid_model/auxiliary/serialization/serializer.hpp: get_binary_buffer, get_string, get_msgpack, get_json, JsonConverter", "power_grid_model_c/power_grid_model_c/src/serialization.cpp: PGM_serializer_get_to_binary_buffer, PGM_serializer_get_to_zero_terminated_string"]}
{"id": "C55", "title": "A Newton-Raphson power flow finds the power balance and keeps regulated voltages", "statement": "Voltages that an iteration of the Newton-Raphson power flow leaves as they are solve the power flow: at every bus and phase the currents balance, every source obeys its law, every load and generator without regulator has its specified power, and every generator with a regulator gives its specified active power and either has the voltage of the regulator or gives the reactive power of one of its limits; from the second iteration on, a bus with the voltage of its regulators has a reactive power within the sum of their limits. In every iteration a bus with regulators whose limit has not been found exceeded has the voltage of its regulators. Every iteration is a step of Newton's method for the power that is missing: on the way the missing power, taken as linear, becomes zero. The first voltages balance the currents with every load and generator taken as a constant admittance.", "quantifier": "every grid with one or three phases, every admittance, source, load and generator of every type, regulators with and without limits, and every sequence of iterations from the start", "why_tests_cant": "tests compare a few converged grids with reference values; a wrong entry of the Jacobian only slows convergence, and a wrong treatment of limits or load types shows only in particular combinations", "anchors": ["power_grid_model_c/power_grid_model/include/power_grid_model/math_solver/newton_raphson_pf_solver.hpp: NewtonRaphsonPFSolver, initialize_derived_solver, prepare_matrix_and_rhs, solve_matrix, iterate_unknown, enforce_q_limits, apply_pv_constraints", "power_grid_model_c/power_grid_model/include/power_grid_model/common/three_phase_tensor.hpp"]}
{"id": "C56", "title": "An iteration of the linear state estimation finds the weighted least squares estimate", "statement": "The voltages that an iteration of the iterative linear state estimation computes minimise, over all voltages, the sum of the squared residuals of all measured voltages, branch currents and powers, shunt powers and bus injections, each divided by its variance, among the voltages that meet the injections without variance (buses without appliances) exactly. Powers count as currents at the measured or last voltage; voltages without angle and currents with local angle take the angle of the last voltage. Without any measured angle the estimate is rotated as a whole, so that the voltage of the slack bus has angle zero. Two solutions of the equations of an iteration agree in every measured quantity. Voltages that meet all measurements without error stay as they are.", "quantifier": "every grid with every number of phases, branches connected at both, one or no side, every set of sensors with positive variances, and every last voltages", "why_tests_cant": "tests compare estimates of a few grids with reference values; whether no other voltages fit better is a statement about all voltages, and a wrong sign or weight for one kind of sensor shows only in the right combination", "anchors": ["power_grid_model_c/power_grid_model/include/power_grid_model/math_solver/iterative_linear_se_solver.hpp: IterativeLinearSESolver, prepare_matrix, prepare_rhs, iterate_unknown, power_to_global_current_measurement, current_to_global_current_measurement", "power_grid_model_c/power_grid_model/include/power_grid_model/math_solver/measured_values.hpp: combine_voltage_iteration_with_measurements", "power_grid_model_c/power_grid_model/include/power_grid_model/common/statistics.hpp"]}
{"id": "C57", "title": "An iteration of the Newton-Raphson state estimation makes the Gauss-Newton step of weighted least squares", "statement": "The change that an iteration of the Newton-Raphson state estimation makes to the voltage angles and magnitudes minimises the sum of the squared residuals of all measurements (voltage magnitudes and angles, powers and currents of branches, powers of shunts, injections at buses), each divided by its variance, where a quantity is taken as linear with its derivatives at the present voltages, among all changes that meet the injections without variance. Conversely, each such change, turned such that the angle of the source is zero when no angle is measured, solves the equations of the iteration. So voltages that the iteration leaves as they are meet the injections without variance, and the sum of the weighted squares does not change at first order in any direction that keeps them; and the iteration can stay where that is so. Without a measured angle the angle of the source is zero after every iteration.", "quantifier": "every grid, every set of sensors with positive variances, every sequence of iterations with nonzero voltage magnitudes, and every change of the voltages", "why_tests_cant": "tests compare estimates of a few grids with reference values; a wrong derivative, sign or weight for one kind of sensor only slows the convergence or shifts the estimate slightly in grids where such a sensor is not exact", "anchors": ["power_grid_model_c/power_grid_model/include/power_grid_model/math_solver/newton_raphson_se_solver.hpp: NewtonRaphsonSESolver, prepare_matrix_and_rhs, process_branch_measurement, process_injection_row, process_voltage_measurements, iterate_unknown", "power_grid_model_c/power_grid_model/include/power_grid_model/math_solver/block_matrix.hpp", "power_grid_model_c/power_grid_model/include/power_grid_model/common/three_phase_tensor.hpp: dot"]}
{"id": "C58", "title": "The observability check accepts only grids whose sensors determine all voltages, and refuses for lack of sensors only grids that are not observable", "statement": "When the state estimation declares a grid observable, each bus can be linked to a bus with a measured voltage angle (or to all other buses, when no angle is measured) by branches that each have a sensor of their own: a power or current sensor on the branch, or the injection at one of its two ends, where no sensor serves two branches. Only then it adds a perturbation to an ill-conditioned matrix. When the calculation is refused because of too few sensors, no such choice exists. In a radial grid with at most one measured angle the check declares the grid observable exactly when such a choice exists. A meshed grid with several measured angles is never declared observable.", "quantifier": "every grid (with any number of buses and branches, parallel branches included), every set of sensors, every start bus and every course of the search for a spanning tree with its reassignments and roll backs", "why_tests_cant": "the search reassigns sensors while it walks the grid and tries several start buses; a sensor counted twice in a rare course makes the estimation solve a singular system with a perturbation and return arbitrary voltages without an error", "anchors": ["power_grid_model_c/power_grid_model/include/power_grid_model/math_solver/observability.hpp: observability_check, scan_network_sensors, necessary_condition, assign_independent_sensors_radial, sufficient_condition_radial_with_voltage_phasor, complete_bidirectional_neighbourhood_info, prepare_starting_nodes, find_spanning_tree_from_node, sufficient_condition_meshed_without_voltage_phasor", "power_grid_model_c/power_grid_model/include/power_grid_model/math_solver/newton_raphson_se_solver.hpp", "power_grid_model_c/power_grid_model/include/power_grid_model/math_solver/iterative_linear_se_solver.hpp"]}
{"id": "C59", "title": "Inputs and results in SI units mean what is documented", "statement": "Of every result the apparent power is voltage times current (times the square root of 3 for symmetric calculations) and is made up of active and reactive power; the power at a node is what flows into its branches, and production minus consumption of its appliances. A load or generator takes the power specified for it, times its dependence on the voltage, whether it or the calculation is symmetric or not; a shunt consumes g u^2 and produces b u^2. The power factor is P/S, within -1 and 1. Loading is at most 1 exactly when no current (lines) or apparent power (transformers) exceeds the rated one. Residuals of sensors are measured minus reported value, in W, var, V, A and rad within half a turn, for sensors and calculations of either symmetry. A fault at a source takes its short circuit power; the current of a fault is voltage over impedance. Symmetric short circuit results are balanced.", "quantifier": "every solution in per-unit, every rated voltage, every symmetry of component and calculation, every kind of appliance, rating and sensor", "why_tests_cant": "unit tests check single values of single components; a factor of 3 or of the square root of 3, a sign, or a rotation between phases is only wrong for some combinations of symmetries of input and calculation", "anchors": ["power_grid_model_c/power_grid_model/include/power_grid_model/component/node.hpp: get_output, get_sc_output", "power_grid_model_c/power_grid_model/include/power_grid_model/component/branch.hpp: get_output", "power_grid_model_c/power_grid_model/include/power_grid_model/component/branch3.hpp: get_output", "power_grid_model_c/power_grid_model/include/power_grid_model/component/appliance.hpp: get_output, get_sc_output", "power_grid_model_c/power_grid_model/include/power_grid_model/component/load_gen.hpp", "power_grid_model_c/power_grid_model/include/power_grid_model/component/shunt.hpp", "power_grid_model_c/power_grid_model/include/power_grid_model/component/source.hpp", "power_grid_model_c/power_grid_model/include/power_grid_model/component/fault.hpp", "power_grid_model_c/power_grid_model/include/power_grid_model/component/power_sensor.hpp", "power_grid_model_c/power_grid_model/include/power_grid_model/component/voltage_sensor.hpp", "power_grid_model_c/power_grid_model/include/power_grid_model/component/current_sensor.hpp", "power_grid_model_c/power_grid_model/include/power_grid_model/common/common.hpp: base_power, u_scale", "power_grid_model_c/power_grid_model/include/power_grid_model/common/statistics.hpp: PolarComplexRandVar"]}
{"id": "C60", "title": "The selective inverse holds the blocks of the inverse matrix", "statement": "When a block matrix has been factored without perturbation, it has an inverse, and the call that turns the factors into the selective inverse leaves at every stored entry, fill-ins included, exactly the block of the inverse matrix at the row and column of that entry, whatever permutations were chosen inside the blocks. It never reads or writes outside the stored entries and never fails. After a perturbed factorisation the call is refused.", "quantifier": "every block size, every matrix, every pattern with symmetric structure that is closed under elimination, in particular those of all networks; every choice of pivots inside the blocks", "why_tests_cant": "tests compare some inverses of small matrices; a wrong search position, an overwritten block that is still needed, or a missing permutation shows only for patterns with particular fill-ins and pivots", "anchors": ["power_grid_model_c/power_grid_model/include/power_grid_model/math_solver/sparse_lu_solver.hpp: inplace_selective_inverse_with_prefactorized_matrix, update_selective_inverse_pivot_row_and_column, find_entry"]}
{"id": "C61", "title": "A balanced grid gives the same results in a symmetric and in an asymmetric calculation", "statement": "For a grid whose components are symmetric and whose loads and generators have the same power in every phase, an asymmetric power flow gives the results of the symmetric one: the voltages and currents of the phases have the same magnitude and are 120 degrees apart, every phase carries a third of the power, losses, loadings and power factors are the same, and the same number of iterations is needed. The limits of voltage regulators have the same effect in both.", "quantifier": "every grid of lines, links, transformers, transposed lines given by matrices and shunts, open or closed at either side, with any number of sources at any bus, every loading, every load type; the linear and the iterative current method", "why_tests_cant": "tests compare the two calculations for a few grids, most without zero-sequence paths or vector group shifts; that the zero-sequence data never enter, and that every iteration keeps the balance, are statements about all grids", "anchors": ["power_grid_model_c/power_grid_model/include/power_grid_model/math_solver/linear_pf_solver.hpp: run_power_flow", "power_grid_model_c/power_grid_model/include/power_grid_model/math_solver/iterative_current_pf_solver.hpp: make_flat_start, prepare_matrix_and_rhs, iterate_unknown", "power_grid_model_c/power_grid_model/include/power_grid_model/math_solver/common_solver_functions.hpp: calculate_pf_result", "power_grid_model_c/power_grid_model/include/power_grid_model/calculation_parameters.hpp: SourceCalcParam::y_ref", "power_grid_model_c/power_grid_model/include/power_grid_model/component/shunt.hpp: calc_param", "power_grid_model_c/power_grid_model/include/power_grid_model/component/voltage_regulator.hpp: calc_param", "power_grid_model_c/power_grid_model/include/power_grid_model/component/load_gen.hpp: calc_param"]}
{"id": "C62", "title": "The results follow from the given ohms, farads and nameplate values, whatever the per-unit base", "statement": "The reported volts, amperes and watts at the two sides of a branch are those of the circuit with the given data: a line has the given impedance and the admittance 2 pi f c (tan + i), a generic branch its ratio and angle times the ratio of the rated voltages, a transformer an impedance at which the short-circuit test shows uk and pk and an admittance at which the no-load test shows i0 and p0 at the current tap position, its voltage ratio and clock, and earthing impedances of the given ohms; wires given by matrices are coupled by these matrices, with the neutral earthed at both ends. A three-winding transformer shows uk and pk in the three short-circuit tests, i0 and p0 in the no-load test, and a delta winding takes no current that is equal in its phases.", "quantifier": "every line, generic branch, asymmetric line, transformer and three-winding transformer, every rated voltage of the nodes and of the component, every tap position and clock, all voltages and currents, each side open or closed", "why_tests_cant": "tests compare per-unit numbers worked out by the formulas of the code; that ohms in give volts and amperes out for every base, ratio, tap and open side is a statement about all of them", "anchors": ["power_grid_model_c/power_grid_model/include/power_grid_model/component/line.hpp: Line", "power_grid_model_c/power_grid_model/include/power_grid_model/component/generic_branch.hpp: GenericBranch", "power_grid_model_c/power_grid_model/include/power_grid_model/component/asym_line.hpp: AsymLine, compute_z_series_from_input, compute_c_matrix_from_input", "power_grid_model_c/power_grid_model/include/power_grid_model/component/line_utils.hpp: kron_reduction", "power_grid_model_c/power_grid_model/include/power_grid_model/component/transformer.hpp: Transformer, transformer_params, calculate_z_pu", "power_grid_model_c/power_grid_model/include/power_grid_model/component/three_winding_transformer.hpp: convert_to_two_winding_transformers"]}
{"id": "C63", "title": "Branches and shunts do not generate active power, and powers add up over the grid", "statement": "With resistances, losses and conductances that are not negative, the active powers that a branch takes at its sides add up to at least zero, whatever the voltages, in symmetric and asymmetric calculations, with sides open or closed; so do those of a shunt. The powers injected at all buses together are the powers that go into the branches and shunts, after any updates; so their real part, the losses of the grid, is not negative.", "quantifier": "every line, link, generic branch, asymmetric line, transformer, three-winding transformer and shunt, all voltages, tap positions, clocks, winding types and statuses; every sub-grid and every sequence of updates", "why_tests_cant": "tests compare the losses of a few solved cases; a sign error in one entry of a two-port, in one sequence or in one case of the windings makes power from nothing only for some voltages", "anchors": ["power_grid_model_c/power_grid_model/include/power_grid_model/component/branch.hpp: calc_param_y_sym, calc_param_y_asym", "power_grid_model_c/power_grid_model/include/power_grid_model/component/transformer.hpp: asym_calc_param", "power_grid_model_c/power_grid_model/include/power_grid_model/component/asym_line.hpp: AsymLine", "power_grid_model_c/power_grid_model/include/power_grid_model/component/shunt.hpp: Shunt", "power_grid_model_c/power_grid_model/include/power_grid_model/common/matrix_utils.hpp: average_of_off_diagonal_of_matrix", "power_grid_model_c/power_grid_model/include/power_grid_model/math_solver/y_bus.hpp: calculate_injection, calculate_branch_flow, calculate_shunt_flow"]}
{"id": "C64", "title": "The linear power flow has exactly one solution, whatever the order of the components", "statement": "In a grid of branches and shunts that do not generate active power, with every bus connected to a source, the equations of the linear power flow have exactly one solution, and so have those of every iteration of the iterative current method: it cannot fail for a singular matrix, and no other voltages satisfy the equations. Therefore the voltages do not depend on the numbering of the buses nor on the order in which branches, shunts, sources and loads are given, and the asymmetric calculation of a symmetric grid gives the voltages of the symmetric one.", "quantifier": "every sub-grid, every set of branches with losses that connect the buses, all shunts, sources, loads and generators of constant impedance, symmetric and asymmetric; every renumbering of the buses and reordering of the components", "why_tests_cant": "tests solve a few grids in one order; that no grid with realistic data is singular and that none has a second solution are statements about all grids", "anchors": ["power_grid_model_c/power_grid_model/include/power_grid_model/math_solver/linear_pf_solver.hpp: run_power_flow, prepare_matrix_and_rhs", "power_grid_model_c/power_grid_model/include/power_grid_model/math_solver/iterative_current_pf_solver.hpp: initialize_derived_solver, prepare_matrix_and_rhs", "power_grid_model_c/power_grid_model/include/power_grid_model/math_solver/common_solver_functions.hpp: add_sources, add_linear_loads", "power_grid_model_c/power_grid_model/include/power_grid_model/math_solver/y_bus.hpp: update_admittance", "power_grid_model_c/power_grid_model/include/power_grid_model/component/branch.hpp: calc_param_y_sym, calc_param_y_asym", "power_grid_model_c/power_grid_model/include/power_grid_model/component/transformer.hpp: asym_calc_param"]}
{"id": "C65", "title": "A short circuit has exactly one outcome, and it is the one reported", "statement": "In a grid of branches and shunts that do not generate active power, with every bus connected to a source with a resistance and faults whose resistance is not negative, the equations of the short circuit have exactly one solution, for every type of fault, bolted or through an impedance. No two sets of voltages and fault currents satisfy the balance of currents at all buses and the conditions at all faults, so the reported ones are the only ones. Therefore they do not depend on the numbering of the buses nor on the order of branches, shunts, sources and faults, and the asymmetric calculation of three-phase faults in a symmetric grid gives what the symmetric one gives.", "quantifier": "every sub-grid, every set of branches with losses that connect the buses, all shunts and sources, faults of all four types at any number of buses; every renumbering of the buses and reordering of the components", "why_tests_cant": "tests calculate a few faults in a few grids; that the rows changed for a bolted fault never make the equations singular, and that nothing else satisfies the conditions at the faults, are statements about all grids and faults", "anchors": ["power_grid_model_c/power_grid_model/include/power_grid_model/math_solver/short_circuit_solver.hpp: run_short_circuit, prepare_matrix_and_rhs, add_fault, calculate_result", "power_grid_model_c/power_grid_model/include/power_grid_model/math_solver/common_solver_functions.hpp: add_sources", "power_grid_model_c/power_grid_model/include/power_grid_model/component/fault.hpp: calc_param", "power_grid_model_c/power_grid_model/include/power_grid_model/component/source.hpp: math_param"]}
{"id": "C66", "title": "With balanced measurements the asymmetric state estimation finds what the symmetric one finds", "statement": "In a grid of symmetric components with balanced measurements (voltages and currents of phases b and c lag by 120 and 240 degrees, magnitudes and powers are the same in every phase, with the same variances), every iteration of the asymmetric iterative linear state estimation gives in phase a the voltages of the symmetric one and in phases b and c the same voltages lagging by 120 and 240 degrees. So the estimates after any number of iterations, the currents, and the powers per phase are those of the symmetric calculation. Symmetric sensors, and asymmetric sensors that read the same in every phase, deliver such balanced measurements.", "quantifier": "every sub-grid of symmetric components, every set of balanced measurements of voltages, powers and currents with any variances, any number of iterations, with or without measured voltage angles; every reading of a symmetric or balanced asymmetric sensor", "why_tests_cant": "tests compare both calculations for a few grids and sets of sensors and up to a tolerance; that the three-phase weighted least squares problem splits exactly for all of them is an algebraic statement", "anchors": ["power_grid_model_c/power_grid_model/include/power_grid_model/math_solver/iterative_linear_se_solver.hpp: run_state_estimation, prepare_matrix, prepare_rhs, iterate_unknown", "power_grid_model_c/power_grid_model/include/power_grid_model/math_solver/measured_values.hpp: process_voltage_measurements, process_bus_voltage_measurements", "power_grid_model_c/power_grid_model/include/power_grid_model/common/statistics.hpp: PolarComplexRandVar, DecomposedComplexRandVar", "power_grid_model_c/power_grid_model/include/power_grid_model/component/voltage_sensor.hpp, power_sensor.hpp, current_sensor.hpp: calc_param"]}
{"id": "C67", "title": "The state estimate depends on the measurements, not on the order of components nor on the scale of the variances", "statement": "If the measured quantities determine the voltages, the iterative linear state estimation gives the same voltages, branch currents and injections whatever the order in which nodes, branches and shunts are given, whichever end of a branch is called from and whichever to (its sensors then change side with it), and also if all standard deviations are multiplied by the same number. In particular the internal division of all variances by the least one does not change the estimate.", "quantifier": "every sub-grid and set of measurements that determines the voltages, every renumbering of buses, branches and shunts, every choice of branches to be turned around, every positive factor on the variances, any number of iterations", "why_tests_cant": "tests use one order of components per grid and one set of variances; that nothing of the result depends on them is a statement about all permutations and factors", "anchors": ["power_grid_model_c/power_grid_model/include/power_grid_model/math_solver/iterative_linear_se_solver.hpp: run_state_estimation, prepare_matrix, prepare_rhs, iterate_unknown", "power_grid_model_c/power_grid_model/include/power_grid_model/math_solver/measured_values.hpp: normalize_variance", "power_grid_model_c/power_grid_model/include/power_grid_model/math_solver/y_bus.hpp: construct_y_bus_elements"]}
{"id": "C68", "title": "With enough sensors every iteration of the state estimation has exactly one outcome", "statement": "The equations that an iteration of the iterative linear state estimation solves have exactly one solution if the measured quantities determine the voltages and no exactly known injection (of a bus without appliances) follows from the other ones; this does not depend on the measured values nor on the last iteration, and without either of the two there is never exactly one solution. Then the estimation has exactly one estimate after every number of iterations. The voltages are determined in particular if they follow one after the other from measured voltages, from powers or currents measured at branches, from powers of shunts and from injections; and also, in a grid of branches and shunts that do not generate active power, if every bus is connected by branches with losses to a bus with a known voltage and the injections of all other buses are measured or zero. There the exactly known injections are independent as soon as every bus is connected to a bus with an appliance.", "quantifier": "every sub-grid and set of measurements with variances that are not zero, all measured values, every start and any number of iterations; every order in which voltages follow from sensors", "why_tests_cant": "tests solve the equations for some grids; that an observable grid never gives a singular matrix, whatever is measured, is a statement about all grids, sensors and values", "anchors": ["power_grid_model_c/power_grid_model/include/power_grid_model/math_solver/iterative_linear_se_solver.hpp: run_state_estimation, prepare_matrix, prepare_rhs", "power_grid_model_c/power_grid_model/include/power_grid_model/math_solver/observability.hpp: observability_check", "power_grid_model_c/power_grid_model/include/power_grid_model/math_solver/sparse_lu_solver.hpp: prefactorize_and_solve"]}
{"id": "C69", "title": "What a logger reports after a batch does not depend on the threads", "statement": "After a calculation with any number of worker threads, interleaved in any way, the calculation info that the caller passed says of every kind of event the total of all logged numbers (apart from rounding), and for the numbers of iterations the largest one; every number counts exactly once, and apart from the copies of the model and the totals per worker the report is the same for every number of threads. A text logger shows every event exactly once, those of a thread together and in their order, and hands all of them to its handler. Every timer that is started is logged exactly once, however it is moved.", "quantifier": "every interleaving of any number of threads and of the main thread, every number of scenarios and everything that is logged; every sequence of operations on timers", "why_tests_cant": "tests run a few schedules; a lost or doubly counted number shows up only for some interleavings", "anchors": ["power_grid_model_c/power_grid_model/include/power_grid_model/common/calculation_info.hpp: CalculationInfo, merge_into", "power_grid_model_c/power_grid_model/include/power_grid_model/common/multi_threaded_logging.hpp: MultiThreadedLoggerImpl, ThreadLogger", "power_grid_model_c/power_grid_model/include/power_grid_model/common/text_logger.hpp: TextLogger", "power_grid_model_c/power_grid_model/include/power_grid_model/common/timer.hpp: Timer", "power_grid_model_c/power_grid_model/include/power_grid_model/job_dispatch.hpp: single_thread_job"]}
{"id": "C70", "title": "The meta data functions find exactly what exists, and the layout they describe is sound", "statement": "Looking up a dataset, a component or an attribute by names returns the one with exactly these names and leaves no error, or there is none, null is returned and an error is left; looking up by position succeeds exactly for positions from 0 up to the reported number; the reported names lead back to the same pointer. In every dataset the attributes of every component are exactly the members of its struct, each inside the reported size, at an offset its type allows and without overlap, and an element that is converted to a more general type shows the same members. Names are unique, every component starts with its id, every attribute of the update data is one of the input with the same type, and every attribute of a new element is not given.", "quantifier": "every meta data with unique names, all names and null pointers, all positions, every struct with any members; the tables of all components of all five datasets", "why_tests_cant": "tests look up some names; a wrong offset or a duplicate name in one of the generated tables corrupts the data of one attribute only, and the layout must hold for every struct", "anchors": ["power_grid_model_c/power_grid_model_c/src/meta_data.cpp: PGM_meta_*", "power_grid_model_c/power_grid_model/include/power_grid_model/auxiliary/meta_data.hpp: MetaData, MetaDataset, MetaComponent", "power_grid_model_c/power_grid_model/include/power_grid_model/auxiliary/meta_gen/gen_getters.hpp: get_meta_attribute, get_meta_component", "power_grid_model_c/power_grid_model/include/power_grid_model/auxiliary/meta_gen/{input,update,output}.hpp", "power_grid_model_c/power_grid_model/include/power_grid_model/auxiliary/{input,update,output}.hpp"]}
