{"claims": [
 {"property": "C01", "status": "proved", "theorems": ["C01_contract_is_the_defining_sum", "C01_idle_edges_are_dropped", "C01_idle_edge_refuted", "C33_closed_edge_refuted"], "note": "For networks of arrays without idle edges (closed, unfixed, unattached) whose closed fixed edges are fixed to one value; for both exceptions the program's result differs from the defining sum (refuted). Exact relation with idle edges proved."},
 {"property": "C02", "status": "proved", "theorems": ["C02_order_independent"], "note": "All pairs of valid pairwise orders, any slicing."},
 {"property": "C03", "status": "proved", "theorems": ["C03_slicing_invariant", "C03_dim1_open_edge_refuted", "C03_fixed_edge_refuted", "C03_dim0_edge_refuted"], "note": "For sliced edges that are attached, unfixed, of positive dimension, and more than one subtask if an open edge is sliced; refuted in each excluded case."},
 {"property": "C04", "status": "proved", "theorems": ["C04_subtasks_enumerate_slices"], "note": ""},
 {"property": "C05", "status": "proved", "theorems": ["C05_execution_uses_last_created_slice", "C05_subtask_independent"], "note": "The stronger claim, independence of all other subtasks, is false: C05_interleaving_refuted."},
 {"property": "C06", "status": "proved", "theorems": ["C06_expand", "C06_expand_nodes", "C06_integer_names", "C06_name_clash_refuted", "C06_mixed_names_refuted", "C06_views_raise"], "note": "expand of any nesting depth, for every order of set iteration: succeeds, leaves no network inside, same value at every index, same shape. Guards: no outer name extends the name of an expanded node, edges that must be merged have comparable names (always true for integer names: C06_integer_names), no node holds a view (expand raises there). Without the guards the property is refuted."},
 {"property": "C07", "status": "proved", "theorems": ["C07_encapsulate", "C07_disjoint_groups", "C07_simplify", "C07_fixed_boundary_refuted", "C07_open_edge_refuted", "C07_simplify_grows_refuted"], "note": "encapsulate on any valid choice of nodes and/or edges, lists of disjoint groups, and simplify, for every iteration order of Python sets. The guard that no boundary edge is fixed is necessary (C07_fixed_boundary_refuted); so is the guard that edges given without nodes are closed (C07_open_edge_refuted)."},
 {"property": "C08", "status": "proved", "theorems": ["C08_complete_delta", "C08_name_collision_refuted"], "note": "Guarded: the names delta completion invents must be free; without the guard the property is refuted."},
 {"property": "C09", "status": "proved", "theorems": ["C09_fix_index_slices", "C09_fix_index_set", "C09_fix_twice_intersects", "C09_fixes_commute", "C09_fix_set_is_sum", "C09_change_fix_refuted"], "note": "For networks not edited with change_fix; with change_fix a value may be counted twice (refuted)."},
 {"property": "C10", "status": "proved", "theorems": ["C10_merge_edges", "C10_merge_edges_default", "C13_fits_refuted_merge_edges"], "note": "For distinct edges of one dimension; merging edges of different dimensions is accepted by the code (refutation listed)."},
 {"property": "C11", "status": "proved", "theorems": ["C11_close_sums", "C11_open_splits", "C11_open_then_close", "C11_bond_dim_ignored"], "note": ""},
 {"property": "C12", "status": "proved", "theorems": ["C12_histories_keep_consistency", "C12_after_failed_call_refuted"], "note": "All histories of successful calls from any constructor call, edge names given explicitly."},
 {"property": "C13", "status": "proved", "theorems": ["C13_dimension_never_changes", "C13_other_dimension_rejected"], "note": "Not checked, hence refuted, for rewire, merge_edges and update_node on repeated legs: C13_fits_refuted_rewire, C13_fits_refuted_merge_edges, C13_fits_refuted_update_node."},
 {"property": "C14", "status": "proved", "theorems": ["C14_failed_edits"], "note": "The claim for all calls is false: C14_failed_edits_refuted, C14_refuted_for_each_call."},
 {"property": "C15", "status": "proved", "theorems": ["C15_pop_then_add", "C15_insertion_order"], "note": ""},
 {"property": "C16", "status": "proved", "theorems": ["C16_scale", "C16_neg", "C16_add", "C16_sub", "C16_conjugate", "C16_transpose", "C16_norm_squared", "C16_indices", "C16_add_same_object", "C16_add_mismatch"], "note": "Two different objects of fully known shape; the same object twice raises KeyError, different shapes ValueError. Conjugation of a network or sum at any nesting depth."},
 {"property": "C17", "status": "proved", "theorems": ["C17_tensor_product_refuted", "C17_mismatch_refuted", "C17_exact", "C17_scalar_factor"], "note": "The tensor product claim is refuted for operands of rank >= 1; proved is the exact value for all ranks, and the tensor product when one operand is a scalar."},
 {"property": "C18", "status": "proved", "theorems": ["C18_history", "C18_spec_deterministic", "C18_failed_add_refuted"], "note": "Refinement of every history, failing requests included, to a map of terms; refuted for terms with partly unknown dimensions."},
 {"property": "C19", "status": "proved", "theorems": ["C19_isolated", "C19_copy", "C19_deepcopy", "C19_copy_value"], "note": "Networks with shared attribute lists in a store; programs over several objects with copy, deepcopy and the 14 edit calls refine the value semantics. Without the guard on rewire and change_fix the claim is false: C19_rewire_refuted, C19_change_fix_refuted."},
 {"property": "C20", "status": "proved", "theorems": ["C20_auto_names_fresh"], "note": "Without the condition on names, or after copy(): C20_auto_names_fresh_refuted, C20_copy_refuted."},
 {"property": "C21", "status": "proved", "theorems": ["C21_base_finder_valid", "C21_default_finder_valid", "C21_opt_einsum_finder_valid", "C21_partition_finder_valid", "C21_valid_orders_give_valid_paths", "C21_found_order_contracts", "C21_reserved_names_refuted", "C21_wide_path_refuted", "C21_partition_pairwise_refuted"], "note": "For every list of nodes not using the reserved names '#' and ('#', _), and every pairwise path / partition the external optimisers may return. The refutations show that the reserved-name condition, the pairwise-path condition and the pairwise claim for a fully simplified network are needed."},
 {"property": "C22", "status": "proved", "theorems": ["C22_fresh_names", "C22_fresh_for_complete_orders", "C22_copy_continues", "C22_result_names_refuted"], "note": "Names drawn differ from each other and from every operand; for complete orders from every name. A result name that no step uses is not seen by the counter (refuted)."},
 {"property": "C23", "status": "proved", "theorems": ["C23_flatten_keeps_order", "C23_final_tensor_has_all_leaves", "C23_optimize_keeps_order"], "note": "Every complete order, tensor sizes, size limit and offset; optimize for any number of rounds."},
 {"property": "C24", "status": "proved", "theorems": ["C24_tree_round_trip", "C24_flip_keeps_order"], "note": "Every complete pairwise order; flip_branch for any flip decisions."},
 {"property": "C25", "status": "proved", "theorems": ["C25_init_keeps_the_path", "C25_paths_valid", "C25_calls_succeed", "C25_any_root", "C25_switch_edges", "C25_unmerge_undoes_merge", "C25_step_from_operand_refuted"], "note": "Any sequence of switch_edges, step_root, switch_branches, merge_branches and unmerge_branches with arguments that fit the tree. detect_stem is not modelled: the stem is any simple path. step_root from an end that is an operand raises (refuted)."},
 {"property": "C26", "status": "proved", "theorems": ["C26_linear_to_ssa_and_back", "C26_ssa_to_linear_and_back", "C26_empty_path_refuted"], "note": "Both directions, and both forms denote the same contraction tree. The empty path (one operand) raises: C26_empty_path_refuted."},
 {"property": "C27", "status": "proved", "theorems": ["C27_optimal_valid", "C27_branch_valid", "C27_greedy_valid", "C27_auto_valid", "C27_tree_to_sequence", "C27_dynamic_programming_valid", "C27_dynamic_programming_stops", "C27_single_input_refuted", "C27_reused_optimiser_refuted", "C27_no_branch_refuted", "C27_dynamic_programming_loops_refuted", "C27_infeasible_limit_refuted", "C27_dynamic_programming_scalars_refuted"], "note": "Without the guards the claim is false of the code: the _refuted theorems give a single input, a reused BranchBound, nbranch=0, a dimension of size one and an infeasible memory limit (endless search), and scalar operands."},
 {"property": "C28", "status": "proved", "theorems": ["C28_find_contraction", "C28_flop_count"], "note": ""},
 {"property": "C29", "status": "proved", "theorems": ["C29_dump_load", "C29_single_operand_refuted"], "note": "JSON values, not their text: json.dump and json.load are taken to be inverse on JSON values. Steps with one operand are written but cannot be loaded."},
 {"property": "C30", "status": "proved", "theorems": ["C30_less_strict_weak", "C30_equal_compatible", "C30_addition", "C30_trichotomy_refuted", "C30_sliced_addition_refuted"], "note": "The two _refuted theorems: == is finer than the ties of <, and + forgets slices."},
 {"property": "C31", "status": "proved", "theorems": ["C31_set_data_binds_by_name", "C31_task_follows_its_network"], "note": "Without the conditions: C31_equal_string_forms_refuted, C31_superset_refuted, C31_subtasks_use_stale_data_refuted."},
 {"property": "C32", "status": "proved", "theorems": ["C32_update_fix_recompiles", "C32_sliced_delta_edge_refuted"], "note": "When the sliced edges are unfixed edges of the user's network; refuted otherwise."},
 {"property": "C33", "status": "proved", "theorems": ["C33_no_value_gives_zero", "C01_contract_is_the_defining_sum"], "note": "One value and open edges are C01, no value is C33_no_value_gives_zero. Several values on a closed edge: C33_closed_edge_refuted."},
 {"property": "C34", "status": "proved", "theorems": ["C34_appends_kept", "C34_append_accepts", "C34_append_step", "C34_time_order", "C34_append_last"], "note": "Names given (or generated) for the appended operations must be distinct: append without a name can generate a name already in use and then overwrites that operation (C34_name_reuse_refuted), although its documentation promises uniqueness."},
 {"property": "C35", "status": "proved", "theorems": ["C35_shape", "C35_valid"], "note": "The shape is that of the word of uses of each qubit; validity is alternation and one use per time."},
 {"property": "C36", "status": "proved", "theorems": ["C36_circuit", "C36_operation", "C36_built"], "note": "For every well-formed pure operation, by induction on its structure; amplitude is defined in CircSpec independently of networks. Data of operations are arbitrary functions over an arbitrary commutative ring with conjugation."},
 {"property": "C37", "status": "proved", "theorems": ["C37_or", "C37_product"], "note": "Guards: no operation of the first operand bears a name that is the default name of a later time (C37_name_refuted shows the loss of an operation otherwise), names of qubits comparable, uses alternate."},
 {"property": "C38", "status": "proved", "theorems": ["C38_adjoint", "C38_twice", "C38_reversed_order"], "note": "For reversible operations: what is flagged self-adjoint is so, at most one operation without qubits per time, no controlled circuits. Without the guards refuted: C38_no_qubits_refuted, C38_controlled_circuit_refuted."},
 {"property": "C39", "status": "proved", "theorems": ["C39_density_of_pure", "C39_density", "C39_superposition_refuted"], "note": "For all well-formed pure operations and circuits nested to any depth, without SuperPosition (whose density the code refuses with ValueError: C39_superposition_refuted). C39_density also gives the entries for mixed circuits."},
 {"property": "C40", "status": "proved", "theorems": ["C40_controlled", "C40_tensor"], "note": "For controllable operations; nested controls through the clause that the result is controllable. Circuits must be non-empty and filled in time order, and a controlled circuit cannot be controlled again: C40_insertion_order_refuted, C40_empty_refuted, C40_twice_refuted."},
 {"property": "C41", "status": "proved", "theorems": ["C41_depolarization", "C41_depolarization_default", "C41_dephasing", "C41_amplitude_damping", "C41_trace", "C41_measurement", "C41_from_kraus", "C41_kraus_trace", "C41_complex_refuted"], "note": "Square roots of probabilities need 0 <= p <= 1; trace preservation holds for all real parameters. operation_from_kraus: real operators only, because with a complex one the call raises TypeError (C41_complex_refuted)."},
 {"property": "C42", "status": "proved", "theorems": ["C42_matrices", "C42_rotations", "C42_exponential", "C42_unitary", "C42_circuits", "C42_rotation_adjoint", "C42_rotations_add", "C42_squares", "C42_controlled", "C42_conjugation", "C42_y_half_refuted", "C42_states", "C42_orthonormal"], "note": "Over exact complex numbers (pairs of Coq reals). C42_y_half_refuted: YHalfGate squares to Pauli Y, which is minus the package's YGate."},
 {"property": "C43", "status": "proved", "theorems": ["C43_memory_guard"], "note": ""},
 {"property": "C44", "status": "proved", "theorems": ["C44_cost_of_the_path"], "note": "The recorded cost equals an independently defined cost of the path that get_path returns, after any history."},
 {"property": "C45", "status": "proved", "theorems": ["C45_parallel"], "note": "Guard: the operands have together at least one qubit (C45_no_qubits_refuted) and uses alternate."},
 {"property": "C46", "status": "proved", "theorems": ["C46_expressions", "C46_unitary"], "note": "Over any scalar with conjugation. The side conditions of 'good' exclude exactly the shapes refuted under C38 and C40; C42_circuits_somewhere shows a nested expression that meets them."},
 {"property": "C47", "status": "proved", "theorems": ["C47_trace", "C47_pure"], "note": "Over any scalar with conjugation."},
 {"property": "C48", "status": "proved", "theorems": ["C48_kraus", "C48_physical", "C48_density_matrix"], "note": "C48_kraus over any scalar; the others over the complex numbers (Coq reals). XXRotation is a superposition, for which tensor_density raises ValueError (C39_superposition_refuted), so it is excluded."},
 {"property": "C49", "status": "proved", "theorems": ["C49_deepcopy", "C49_tensor_copy", "C49_sum_copy"], "note": "Store of arrays, tensors and sums; frame theorem over all programs. The guards are needed: C49_iadd_refuted, C49_iadd_view_refuted, C49_sum_fix_refuted."},
 {"property": "C50", "status": "proved", "theorems": ["C50_sum_fix"], "note": "Terms that are networks are not in this model. A shared term is fixed twice: C50_shared_term_refuted."},
 {"property": "C51", "status": "proved", "theorems": ["C51_contract", "C51_default_finder", "C51_runs_agree", "C51_name_clash_refuted", "C51_unattached_open_edge_refuted", "C51_view_in_node_raises"], "note": "Induction over the nesting; expand, complete_delta, compile and execute composed. well (DeepSpec.v) states the guards; C51_name_clash_refuted and C51_unattached_open_edge_refuted show that two of them are needed, C51_view_in_node_raises why nodes hold no views. Nested networks may join edges that are fixed, if each fixed edge has at most one value or the joined values agree (sound, NestSpec.v)."},
 {"property": "C52", "status": "proved", "theorems": ["C52_partial_contract", "C52_part_by_part", "C52_groups"], "note": "Composition of encapsulate (C07), contract() (C51) and update_node, with an invariant (ready, PartSpec.v) that every call keeps. C52_groups has hypotheses on the network before the calls only. A fixed edge on the boundary of a part is excluded as in C07 (C07_fixed_boundary_refuted)."},
 {"property": "C53", "status": "proved", "theorems": ["C53_slicer", "C53_no_needless_slicing", "C53_sliced_value", "C53_no_bound_slices_nothing", "C53_bound_ignored_refuted", "C53_bound_refuted", "C53_exception_refuted", "C53_distinct_edges_refuted", "C53_pairwise_refuted"], "note": "Heuristic decisions (prices, paths, thresholds, ranks, random offsets, listing of sets) are universally quantified. The five _refuted theorems show what the documentation suggests and does not hold."},
 {"property": "C54", "status": "proved", "theorems": ["C54_optimal_is_cheapest", "C54_auto_is_cheapest_for_few_operands", "C54_hyperedges_refuted"], "note": "The cost is a function of the contraction tree (OptimalSpec). Without the guard on indices the claim is false (C54_hyperedges_refuted)."},
 {"property": "C55", "status": "proved", "theorems": ["C55_queries_return_the_energy", "C55_network_is_the_light_cone", "C55_energy_between_best_and_worst", "C55_optimum_is_the_least_cost", "C55_optimum_other_labels_refuted"], "note": "The state and the energy are defined on all variables in QaoaSpec, without reference to networks. Not modelled: the classical optimiser, weighted or selected clauses in preprocess."},
 {"property": "C56", "status": "proved", "theorems": ["C56_pure", "C56_density", "C56_flat_exists", "C56_grouping"], "note": "The flat list is a relation in FlatSpec that does not use the model's conversion. Densities without superpositions (C39). Superpositions and controlled circuits are single operations of the flat list."},
 {"property": "C57", "status": "proved", "theorems": ["C57_add_noise", "C57_keeps", "C57_trace", "C57_no_noise", "C57_labels_refuted"], "note": "NoisySpec says where the noise acts without using add_noise. The guard that nested circuits are numbered is needed: C57_labels_refuted."},
 {"property": "C58", "status": "proved", "theorems": ["C58_probability", "C58_outcomes", "C58_measure", "C58_collapse", "C58_collapse_inputs", "C58_physical", "C58_labels_refuted"], "note": "The draw is a parameter: the theorems hold for every outcome of non-zero probability. contract() is the oracle `contracts` (C51 says when it returns that array). Numbers are exact. The guard on the names of the qubits is needed: C58_labels_refuted."},
 {"property": "C59", "status": "proved", "theorems": ["C59_density", "C59_pure", "C59_package"], "note": "Joins C36, C39 and C40 (entries of the tensors), C51 (contract of nested networks) and C21 (default finder). The path optimiser and the cost are parameters; numbers are exact. C59_package: the package's own states, gates and channels and circuits of them meet the conditions."},
 {"property": "C60", "status": "proved", "theorems": ["C60_ghz"], "note": "for every n >= 1, by induction on the CNOT fan-out; the script's last lines are the subject of C61"},
 {"property": "C61", "status": "proved", "theorems": ["C61_or", "C61_overlap", "C61_ghz", "C61_clean"], "note": "C61_or: composition of channels under the guards of C37, for two circuits. C61_overlap: the number <a|b|a> for any pure reversible a and any b on the same qubits. C61_ghz: the script's last lines, for every n and every one-qubit noise channel; C61_clean: 1 without noise. Numbers are exact complex numbers: rounding is not modelled."},
 {"property": "C62", "status": "proved", "theorems": ["C62_grcs", "C62_overwrites", "C62_skips"], "note": "The gate matrices and the meaning of a line are in GrcsSpec.v, independent of the model. int() and float() are any partial functions on words. C62_overwrites and C62_skips are the two silent losses. Not modelled: simplify=True and the main program with its timing."},
 {"property": "C63", "status": "proved", "theorems": ["C63_idle", "C63_additive", "C63_lamda", "C63_kraus", "C63_unphysical_refuted", "C63_hadamard", "C63_cz", "C63_circuits"], "note": "C63_kraus: Kraus operators exist if and only if the factor on the coherences is at most 1; without that guard refuted (C63_unphysical_refuted). The placement of idle gates is C64. Not modelled: the layout of the surface code."},
 {"property": "C64", "status": "proved", "theorems": ["C64_fills_gaps", "C64_valid", "C64_physical", "C64_names_refuted"], "note": "For any start and end, the start not after the first operation. Gaps and echoes are defined on the life of one qubit (IdleSpec.v), without the loop. What the code reads off the class and the name of an operation is a parameter. Times are even integers in units of any length, so that halving is exact. The guard on names is needed: C64_names_refuted."},
 {"property": "C65", "status": "proved", "theorems": ["C65_couples", "C65_once", "C65_valid", "C65_two_neighbours_refuted", "C65_cross_talk_refuted"], "note": "For a given time step, as in all calls of the repository; times are integers in any unit. The meaning of the gates is C63_cz. C65_once needs that no qubit has two neighbours in the other group; C65_valid (from an empty circuit) shows that validity is equivalent to it. Refuted without it, and so is the way the cross talk is added in add_noisy_surface_code."}
]}
