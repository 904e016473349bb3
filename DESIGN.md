# Formal model of acqdp in Rocq: design

## Approach

The code in /repo is read as text and modelled function by function as total Gallina functions
under `rocq/theories/`. Python dictionaries are association lists in insertion order, exceptions are values,
in-place mutation is modelled by returning the new state, and by an explicit heap where aliasing decides the property.
Numbers are elements of an arbitrary commutative ring with a conjugation (record `scalar`), so theorems hold for exact
arithmetic over any such ring; floating-point rounding is not modelled. External libraries (numpy, opt_einsum,
networkx, kahypar, the Python runtime) are represented by the mathematical meaning of the calls used.

The specification of a network's value (`NetSpec.v`) is separate from the model: a sum over assignments of
edges of the product of node entries.

## Properties, what is modelled, how it is proved

- **C01 contract() returns the defining sum of the network.** Flat network model (nodes, legs, dims, fixes, open edges) + the compile/execute pipeline (fix commands, pairwise einsum along a path, merge). Theorem: result = NetSpec value. Proof: sum algebra (Fubini, factoring), induction on the path.
- **C02 The result does not depend on the contraction order.** Corollary of C01 for two orders.
- **C03 Slicing does not change the result.** Compile with a slice list; induction on slices: merged subtasks = sum/placement of the partial sums.
- **C04 Subtasks enumerate every slice exactly once.** Mixed-radix decode of the subtask index as in __getitem__ and _merge; bijection by arithmetic induction.
- **C05 A subtask's value does not depend on earlier subtasks.** Heap model with shared fix cells; create/execute schedule as an operation list. An execution gives the slice created last; the claim for all interleavings is refuted.
- **C06 Expanding nested networks preserves the value.** expand, add_attribute_to_names and the merges it makes (ModelNest), by induction on the nesting depth and the list of nodes; the sum over the merged edges is the sum over both sides with equal indices (NestJoin.joins_ok, NestExp.un_value). Guards: names that do not extend each other, comparable names where edges are merged, no views; refutations otherwise.
- **C07 Encapsulating a group of nodes preserves the value.** subtn, encapsulate and simplify (ModelNest), with the order of set iteration as an oracle; the group's sum is pulled out of the total sum (NestEnc.nested_value). Guards: no fixed boundary edge, edges given without nodes are closed; refutations otherwise.
- **C08 Delta completion preserves the value and normalises the open edges.** complete_delta on the flat model; delta insertion lemmas.
- **C09 Fixing edges and open indices is slicing.** fix_edge / fix_index on the model; value restricted.
- **C10 Merging edges identifies their indices.** merge_edges on the model; delta elimination with intersected domains.
- **C11 Opening and closing an edge.** open/close on the model; sum splitting.
- **C12 The hypergraph stays consistent under every history of edits.** State-and-exception model of every edit call; invariant by induction over the call list.
- **C13 Bond dimensions are write-once.** Same state machine; monotonicity of the dimension map; which calls reject another dimension and refutations for those that do not.
- **C14 Failed edits that check first leave the network as it was.** Same state machine, exceptions keep the partial state: theorem for the calls that check first; a refuting witness for each other call.
- **C15 Removing and re-adding a node, and insertion order, do not matter.** pop/add on the model; permutation invariance of the value.
- **C16 Linear operations on tensor-valued objects.** Value semantics of tensor-valued objects; each operator is modelled as the object it builds and its value computed.
- **C17 a * b is the tensor product.** Model of __mul__: refuted in general; proved when one operand is a scalar, exact description otherwise.
- **C18 A TensorSum is the sum of the terms currently in it.** State machine with shape cache; refinement to a finite map of terms; refutation of exception safety.
- **C19 Copies of a network are isolated from the original.** Store of leg lists and fix lists shared by copy() (`ModelCopy.v`); programs with several objects refine the value semantics (`CopySpec.v`) by an ownership invariant; refutations for rewire and change_fix.
- **C20 Automatically named edges are new.** id counter in the state machine; freshness invariant for histories on one object; refutation after copy and for user names of the automatic form.
- **C21 Order finders return complete, well-founded orders.** Orders as lists of (operands, result); validity predicate; default finder and path conversion for all paths of single/pair steps; refutation for wider steps.
- **C22 Fresh intermediate names.** OrderCounter model; monotone counter.
- **C23 Flattening an order keeps the contraction it denotes.** _flatten_order as a recursive function on nested orders; leaves preserved.
- **C24 Contraction trees serialise back to valid orders.** ContractionTree as an inductive tree; from_order/full_order round trip.
- **C25 Undirected contraction trees give valid paths.** Undirected tree as an adjacency structure; get_path from any root.
- **C26 SSA and linear contraction paths are inverse encodings.** ssa_to_linear/linear_to_ssa on lists; round trip by induction.
- **C27 Path optimisers return valid paths.** greedy / tree-to-sequence with choice oracles; validity invariant.
- **C28 find_contraction keeps exactly the indices still needed.** find_contraction on list-sets; membership characterisation.
- **C29 Saved contraction schemes load back unchanged.** names as nested tuples, JSON values as nested lists, tuplize; round trip by induction.
- **C30 Contraction costs compare and add consistently.** costs over Z/Q; order laws.
- **C31 set_data binds each tensor to its own node.** stable sort by key with ties; permutation argument for comparable names; refutation for superset data and tying keys.
- **C32 Re-fixing a compiled task equals recompiling.** update_fix on the compiled task heap.
- **C33 Fixes restrict the sum to the fixed values.** closed edges with one value or none, open edges with any set of values; a closed edge with several values is executed with its first one in the preprocessed part: refuted.
- **C34 Every appended operation is kept and applied in time order.** append as insertion into an ordered dictionary; refutation for equal (time, qubits); proof when names are distinct.
- **C35 Circuit shape reports exactly the free inputs and outputs.** regular-expression automaton vs first/last letter specification.
- **C36 tensor_pure of a circuit is the time-ordered product of its operations.** convert_pure as a fold over reversed time; proof against an operator semantics on bit assignments.
- **C37 Sequential composition a | b.** append at fresh times; corollary of C36.
- **C38 Adjoint of operations and circuits.** index permutation of tensors; circuit reversal.
- **C39 Density semantics agree with pure semantics.** convert_density; product of the two copies.
- **C40 Controlled operations.** stacking identity and op; controlled circuits: refutation for out-of-order insertion, proof for time-ordered insertion.
- **C41 Noise channels are trace preserving.** matrices over the reals/complex numbers; ring identities.
- **C42 Named gates satisfy their algebra.** matrices over the complex numbers built on Coq reals; trigonometric identities.
- **C43 The memory guard.** guard predicate in compile.
- **C44 The cost recorded by an undirected contraction tree is the cost of its path.** State machine of the tree edits; the recorded cost is an invariant of every history.
- **C45 Parallel composition a * b.** append of both operands at time 0 on disjoint qubits; amplitude factorises.
- **C46 Expressions of gates.** Expressions over |, *, ~ and Controlled evaluated twice: by the model and by matrix algebra (`ExprSpec.v`); structural induction.
- **C47 Circuits preserve the trace.** Trace preservation as unitality of the dual; induction over the time-ordered operations.
- **C48 Density tensors are density matrices.** Kraus decomposition as an invariant of circuits; positivity over the complex numbers.
- **C49 Copies of tensors and sums are isolated.** Store of arrays (with numpy views), tensors and sums (`ModelObj.v`); frame theorem for programs of statements over variables; refutations for += and fix_index.
- **C50 Fixing an index of a sum fixes it in the value.** Induction over the nesting in the same store, for sums without shared parts.
- **C51 contract() of nested objects returns their array.** `contract_val` (`ModelDeep.v`) composes expand, complete_delta, compile and execute with recursive contract() calls; induction over a specification of the objects (`DeepSpec.v`), with an invariant of expand that keeps networks contractible (`NestSound.v`, `NestThin.v`). When fixed values contradict each other the expanded network has an edge fixed to no value, the compiler returns a task of zeros, and the value of the network is zero (`DeepZero.v`).
- **C52 Contracting part by part.** `partial_contract` (`ModelPart.v`) as encapsulate, contract() and update_node; the specification of one call is `replaced` (`PartSpec.v`); induction over the list of calls with the invariant `ready`.
- **C53 A sliced scheme found by the slicer is usable.** `ModelSlice.v` models the stem, the search over branch switches and the rounds of slicing; invariant on the contraction tree (`SliceTree.v`: the graph stays a tree over the same operands, whatever the switches), on the orders (`good_order`) and on the network left over (`left_over`, `SliceProofs.v`); the value by C01/C03.
- **C54 The exhaustive optimiser returns a cheapest pairwise path.** `OptimalSpec.v` prices a contraction tree without reference to the program. `OptimalProofs.v`: without hyperedges the result and the price of a step depend only on the two index sets, which is what the cache of `optimal` assumes; every pairwise tree is built from the operands by merging pairs. `OptimalSearch.v`: the best price found never exceeds that of a tree that can still be built from what is left.
- **C55 The QAOA demo returns the energy of the full circuit.** `QaoaSpec.v` defines the state and the energy as sums over all assignments. `ModelQaoa.v` models lightcone, the compiled tasks and the queries. `QaoaBuild.v`: what network lightcone builds. `QaoaMath.v`, `QaoaCone.v`: moving a layer from the state to the observable keeps it the identity outside the cone, because rotations and phases that do not touch the cone cancel; by induction over the layers. `QaoaPairs.v`, `QaoaValue.v`: the value of the network is that sum, round by round. `QaoaTask.v`: invariant of the tasks over any sequence of queries (as in C31). `QaoaOpt.v`: optimum.
- **C56 A circuit inside a circuit means its operations.** `FlatSpec.v`: the flat list of an operation, as a relation. `CircFlat.v`: evolving by the amplitude of a circuit placed on wires equals running its operations there, because the circuit's kernel sums over the same inner wires (`represents`, as in C36). `CircNest.v`: words of the flat list; `CircNest2.v`: induction over nesting, for amplitudes; `CircNest3.v`: the same on two copies of the wires, for densities; `CircNest4.v`: from runs to tensors.
- **C57 add_noise puts the channel after each operation, on each qubit it outputs.** `ModelNoise.v`: add_noise. `NoisySpec.v`: the list of channels of a noisy circuit. `NoiseAdd.v`, `NoiseAdd2.v`: the circuit that one operation becomes; `NoiseAdd3.v`: the whole circuit, its shape and order; `NoiseAdd4.v`: its density, by flattening (C56); `NoiseAdd5.v`: trace, and the channel that does nothing. Needs nested circuits numbered from 0: C57_labels_refuted.
- **C58 measure follows the Born rule and leaves the state that belongs to the outcome.** `ModelMeasure.v`: collapse, the probability, measure with the outcome as a parameter. `MeasureSpec.v`: Born probability, states after a measurement, density matrices. `MeasEvolve.v`, `MeasRun.v`: one-wire channels on the doubled wires; `MeasExtend.v`, `MeasFacts.v`, `MeasFacts2.v`: a circuit with operations appended and its density; `MeasOne.v`: a circuit of one operation; `MeasState.v`: the states after are density matrices; `MeasMain.v`. Needs qubits 0..N-1: C58_labels_refuted.
- **C59 contract() of a circuit's tensor returns its amplitudes, and of its density tensor the entries of its channel.** `CoreSpec.v`: operations whose data are arrays or wirings. `CoreVal.v`: objects that satisfy the conditions of C51 whatever network holds them; `CoreNet.v`, `CoreOps.v`: adding a node, conjugates, controlled operations and the density of a pure operation keep this; `CoreDens.v`, `CoreOp.v`: the density network of a circuit, by induction over its gates in order of time and over nesting; `CorePure.v`, `CorePureOp.v`: the same for the network of a pure circuit and of a controlled circuit. Then C36, C39, C40 and C51 give the array.
- **C60 GHZState(n) prepares the GHZ state.** ModelGhz.v models the loop of examples/GHZ.py on top of c_append. The state after each operation is computed on the register of n qubits (GhzProofs.v): after k rounds the first k qubits carry one common bit and the others are 0, with amplitude 1/sqrt 2. Induction over the rounds; C59_pure carries the result to contract().
- **C61 a | b composes channels; overlaps.** The channel of the stacked circuit is the channel of one list followed by the other (ChanOr.v), which splits into a double sum over the qubits between. The channel of the adjoint of a pure circuit is the conjugate transpose (C38, CircPure.v); with no outputs left the composition is the number <a|b|a> (ChanFid.v). For GHZ.py the amplitudes of C60 pick four entries (GhzFid.v), and add_noise keeps the hypotheses (C57).
- **C62 the GRCS reader.** A line is related to an instruction (layer, qubits, matrix) by `reads` (GrcsSpec.v), the matrices given as exponentials of Pauli matrices, iSWAP and fSim. Each line appends one well-formed pure gate with that matrix (GrcsLine.v). The circuit of the file is the preparation followed by the gates; all its orders by layer are time orders, its qubits are 0..n-1, and running it applies the matrices one after the other to the basis state (GrcsProofs.v). C59 gives the contracted array.
- **C63 noise of demo/QEC.** Entries of the density tensors by computation; Kraus operators with square roots, and for the converse the sum of |sqrt(a) K(0,0) - K(1,1)|^2 over Kraus operators, which is a difference of entries. lamda is compared with any antiderivative (mean value theorem). The noisy Hadamard gate as a circuit of two operations, summed over the qubit between. Circuits by C47 and C48.
- **C64 add_idle_noise.** The loop is rewritten as a sequence of uses of qubits; induction over it from the right, with the invariant that the dictionaries of a qubit are a function of its own uses. Fresh names from times sorted in the life of a qubit. Validity by inserting one idle gate after the other and C35_valid; physical by C63_circuits.
- **C65 add_CZ_rotations.** Both loops as structural recursions on the lists; induction on each with the list of appended entries, whose names are told apart by the two coordinates. Sharing of qubits from the characterisation of the entries; validity from C35_valid.

## Trusted base

### Kernel and axioms

- The Coq 8.16.1 kernel (checked again with coqchk by vcheck). No plugin, no `Admitted`, no axiom of this development, no functor.
- `Print Assumptions` is run after every theorem in the `Props_*.v` files. Its answers are, by file:

  - `Props_AddNoise.v`: C57_add_noise, C57_keeps, C57_trace, C57_no_noise, C57_labels_refuted: closed under the global context.
  - `Props_CircContract.v`: C59_density, C59_pure: closed under the global context.
  - `Props_CircContract.v`: C59_package: `ClassicalDedekindReals.sig_forall_dec`, `ClassicalDedekindReals.sig_not_dec`, `FunctionalExtensionality.functional_extensionality_dep`.
  - `Props_Circuit.v`: C34_appends_kept, C34_append_accepts, C34_append_step, C34_time_order, C34_append_last, C34_name_reuse_refuted, C35_shape, C35_valid, C36_circuit, C36_operation, C36_built, C37_or, C37_product, C37_name_refuted, C38_adjoint, C38_twice, C38_reversed_order, C38_no_qubits_refuted, C38_controlled_circuit_refuted, C40_controlled, C40_tensor, C40_insertion_order_refuted, C40_empty_refuted, C40_twice_refuted, C45_parallel, C45_no_qubits_refuted: closed under the global context.
  - `Props_Contract.v`: C01_contract_is_the_defining_sum, C01_idle_edges_are_dropped, C01_idle_edge_refuted, C02_order_independent, C03_slicing_invariant, C03_dim1_open_edge_refuted, C03_fixed_edge_refuted, C03_dim0_edge_refuted, C04_subtasks_enumerate_slices, C05_execution_uses_last_created_slice, C05_subtask_independent, C05_interleaving_refuted, C31_set_data_binds_by_name, C31_task_follows_its_network, C31_equal_string_forms_refuted, C31_superset_refuted, C31_subtasks_use_stale_data_refuted, C32_update_fix_recompiles, C32_sliced_delta_edge_refuted, C33_no_value_gives_zero, C33_closed_edge_refuted, C43_memory_guard: closed under the global context.
  - `Props_Copy.v`: C19_isolated, C19_copy, C19_deepcopy, C19_copy_value, C19_rewire_refuted, C19_change_fix_refuted: closed under the global context.
  - `Props_Cz.v`: C65_couples, C65_once, C65_valid, C65_two_neighbours_refuted, C65_cross_talk_refuted: `ClassicalDedekindReals.sig_forall_dec`, `ClassicalDedekindReals.sig_not_dec`, `FunctionalExtensionality.functional_extensionality_dep`.
  - `Props_Deep.v`: C51_contract, C51_default_finder, C51_runs_agree, C51_name_clash_refuted, C51_unattached_open_edge_refuted, C51_view_in_node_raises: closed under the global context.
  - `Props_Density.v`: C39_density_of_pure, C39_density, C39_superposition_refuted: closed under the global context.
  - `Props_Edit.v`: C12_histories_keep_consistency, C12_after_failed_call_refuted, C13_dimension_never_changes, C13_other_dimension_rejected, C13_fits_refuted_update_node, C13_fits_refuted_rewire, C13_fits_refuted_merge_edges, C14_failed_edits_refuted, C14_refuted_for_each_call, C14_failed_edits, C08_complete_delta, C08_name_collision_refuted, C09_fix_index_slices, C09_fix_index_set, C09_fix_twice_intersects, C09_fixes_commute, C09_fix_set_is_sum, C09_change_fix_refuted, C10_merge_edges, C10_merge_edges_default, C11_close_sums, C11_open_splits, C11_open_then_close, C11_bond_dim_ignored, C15_pop_then_add, C15_insertion_order, C20_auto_names_fresh_refuted, C20_copy_refuted, C20_auto_names_fresh: closed under the global context.
  - `Props_Expand.v`: C06_expand, C06_expand_nodes, C06_integer_names, C06_name_clash_refuted, C06_mixed_names_refuted, C06_views_raise: closed under the global context.
  - `Props_Fidelity.v`: C61_ghz, C61_clean: `ClassicalDedekindReals.sig_forall_dec`, `ClassicalDedekindReals.sig_not_dec`, `FunctionalExtensionality.functional_extensionality_dep`.
  - `Props_Fidelity.v`: C61_or, C61_overlap: closed under the global context.
  - `Props_Flat.v`: C56_pure, C56_density, C56_flat_exists, C56_grouping: closed under the global context.
  - `Props_Gates.v`: C42_controlled: `ClassicalDedekindReals.sig_forall_dec`, `FunctionalExtensionality.functional_extensionality_dep`.
  - `Props_Gates.v`: C42_matrices, C42_rotations, C42_exponential, C42_unitary, C42_circuits, C42_rotation_adjoint, C42_rotations_add, C42_squares, C42_conjugation, C42_y_half_refuted, C42_states, C42_orthonormal: `ClassicalDedekindReals.sig_forall_dec`, `ClassicalDedekindReals.sig_not_dec`, `FunctionalExtensionality.functional_extensionality_dep`.
  - `Props_Gates.v`: C46_expressions, C46_unitary: closed under the global context.
  - `Props_Ghz.v`: C60_ghz: `ClassicalDedekindReals.sig_forall_dec`, `ClassicalDedekindReals.sig_not_dec`, `FunctionalExtensionality.functional_extensionality_dep`.
  - `Props_Grcs.v`: C62_grcs, C62_overwrites, C62_skips: `ClassicalDedekindReals.sig_forall_dec`, `ClassicalDedekindReals.sig_not_dec`, `FunctionalExtensionality.functional_extensionality_dep`.
  - `Props_Idle.v`: C64_fills_gaps, C64_valid, C64_names_refuted: `ClassicalDedekindReals.sig_forall_dec`, `ClassicalDedekindReals.sig_not_dec`, `FunctionalExtensionality.functional_extensionality_dep`.
  - `Props_Idle.v`: C64_physical: `ClassicalDedekindReals.sig_forall_dec`, `ClassicalDedekindReals.sig_not_dec`, `FunctionalExtensionality.functional_extensionality_dep`, `Classical_Prop.classic`.
  - `Props_Measure.v`: C58_measure, C58_physical, C58_labels_refuted: `ClassicalDedekindReals.sig_forall_dec`, `ClassicalDedekindReals.sig_not_dec`, `FunctionalExtensionality.functional_extensionality_dep`.
  - `Props_Measure.v`: C58_probability, C58_outcomes, C58_collapse, C58_collapse_inputs: `ClassicalDedekindReals.sig_forall_dec`, `FunctionalExtensionality.functional_extensionality_dep`.
  - `Props_Nest.v`: C07_encapsulate, C07_disjoint_groups, C07_simplify, C07_simplify_grows_refuted, C07_fixed_boundary_refuted, C07_open_edge_refuted: closed under the global context.
  - `Props_Noise.v`: C41_depolarization, C41_depolarization_default, C41_dephasing, C41_amplitude_damping, C41_trace, C48_physical, C48_density_matrix: `ClassicalDedekindReals.sig_forall_dec`, `ClassicalDedekindReals.sig_not_dec`, `FunctionalExtensionality.functional_extensionality_dep`.
  - `Props_Noise.v`: C41_kraus_trace, C47_trace, C47_pure, C48_kraus: closed under the global context.
  - `Props_Noise.v`: C41_measurement, C41_from_kraus, C41_complex_refuted: `ClassicalDedekindReals.sig_forall_dec`, `FunctionalExtensionality.functional_extensionality_dep`.
  - `Props_Obj.v`: C49_deepcopy, C49_tensor_copy, C49_sum_copy, C49_iadd_refuted, C49_iadd_view_refuted, C49_sum_fix_refuted, C50_sum_fix, C50_shared_term_refuted: closed under the global context.
  - `Props_Ops.v`: C16_scale, C16_neg, C16_add, C16_sub, C16_conjugate, C16_transpose, C16_norm_squared, C16_indices, C16_add_same_object, C16_add_mismatch, C17_tensor_product_refuted, C17_mismatch_refuted, C17_exact, C17_scalar_factor, C18_history, C18_spec_deterministic, C18_failed_add_refuted: closed under the global context.
  - `Props_Optimal.v`: C54_optimal_is_cheapest, C54_auto_is_cheapest_for_few_operands, C54_hyperedges_refuted: closed under the global context.
  - `Props_Order.v`: C21_base_finder_valid, C21_default_finder_valid, C21_reserved_names_refuted, C21_opt_einsum_finder_valid, C21_wide_path_refuted, C21_partition_finder_valid, C21_partition_pairwise_refuted, C21_valid_orders_give_valid_paths, C21_found_order_contracts, C22_fresh_names, C22_fresh_for_complete_orders, C22_copy_continues, C22_result_names_refuted, C23_flatten_keeps_order, C23_final_tensor_has_all_leaves, C23_optimize_keeps_order, C24_tree_round_trip, C24_flip_keeps_order: closed under the global context.
  - `Props_Part.v`: C52_partial_contract, C52_part_by_part, C52_groups: closed under the global context.
  - `Props_Path.v`: C26_linear_to_ssa_and_back, C26_ssa_to_linear_and_back, C26_empty_path_refuted, C27_optimal_valid, C27_branch_valid, C27_greedy_valid, C27_auto_valid, C27_tree_to_sequence, C27_dynamic_programming_valid, C27_dynamic_programming_stops, C27_single_input_refuted, C27_reused_optimiser_refuted, C27_no_branch_refuted, C27_dynamic_programming_loops_refuted, C27_infeasible_limit_refuted, C27_dynamic_programming_scalars_refuted, C28_find_contraction, C28_flop_count: closed under the global context.
  - `Props_Qaoa.v`: C55_network_is_the_light_cone: `ClassicalDedekindReals.sig_forall_dec`, `FunctionalExtensionality.functional_extensionality_dep`.
  - `Props_Qaoa.v`: C55_optimum_other_labels_refuted: closed under the global context.
  - `Props_Qaoa.v`: C55_queries_return_the_energy, C55_energy_between_best_and_worst, C55_optimum_is_the_least_cost: `ClassicalDedekindReals.sig_forall_dec`, `ClassicalDedekindReals.sig_not_dec`, `FunctionalExtensionality.functional_extensionality_dep`.
  - `Props_Qec.v`: C63_idle, C63_additive, C63_hadamard, C63_cz: `ClassicalDedekindReals.sig_forall_dec`, `ClassicalDedekindReals.sig_not_dec`, `FunctionalExtensionality.functional_extensionality_dep`.
  - `Props_Qec.v`: C63_lamda, C63_kraus, C63_unphysical_refuted, C63_circuits: `ClassicalDedekindReals.sig_forall_dec`, `ClassicalDedekindReals.sig_not_dec`, `FunctionalExtensionality.functional_extensionality_dep`, `Classical_Prop.classic`.
  - `Props_Scheme.v`: C29_dump_load, C29_single_operand_refuted, C30_less_strict_weak, C30_equal_compatible, C30_addition, C30_trichotomy_refuted, C30_sliced_addition_refuted: closed under the global context.
  - `Props_Slice.v`: C53_slicer, C53_no_needless_slicing, C53_sliced_value, C53_no_bound_slices_nothing, C53_bound_ignored_refuted, C53_bound_refuted, C53_exception_refuted, C53_distinct_edges_refuted, C53_pairwise_refuted: closed under the global context.
  - `Props_Uct.v`: C25_init_keeps_the_path, C25_paths_valid, C25_calls_succeed, C25_any_root, C25_switch_edges, C25_unmerge_undoes_merge, C44_cost_of_the_path, C25_step_from_operand_refuted: closed under the global context.

- These axioms are those of Coq's standard real numbers (`Coq.Reals`): the theorems over the concrete complex
  numbers (gates, channels, positivity) use them. `Classical_Prop.classic`, excluded middle, comes with the standard
  library's monotonicity of exp and mean value theorem (C63 only). Everything else holds over an arbitrary commutative ring with a
  conjugation and is closed under the global context.
- ssreflect's `under` leaves its (opaque) module `Coq.ssr.ssrunder` in the list coqchk prints; no theorem depends on it.

### Reading of the code

- The correspondence of the definitions in `Model*.v` with the Python text. Each definition cites the lines it models and
  says where it simplifies.
- Python: dictionaries keep insertion order; exceptions are values `Err e`, with the state at the time of the exception
  kept wherever a later call can see it; integers are unbounded; names (dictionary keys) are integers, strings and tuples
  of names, compared as Python compares them (`TypeError` for integers against strings).
- numpy, opt_einsum.contract_expression, np.stack, np.transpose, reshape: their mathematical meaning on exact numbers.
  Floating point and dtype conversions are not modelled (exception: the TypeError of `operation_from_kraus`).
- networkx: adjacency as an association list; the order of iteration is the order of insertion.
- kahypar, random choices, opt_einsum's optimisers called through `contract_path`: oracles. Theorems hold for every
  answer of the oracle that meets the stated contract.
- JSON: `json.load` undoes `json.dump` on JSON values.
- jax, multiprocessing, threads: not modelled.

### Specifications (what has to be read to trust the statements)

`Scalar.v` (scalars), `NetSpec.v` (value of a network), `TNSpec.v` (value of a network object), `OpsSpec.v`,
`OrderSpec.v`, `PathSpec.v`, `UctSpec.v`, `CircSpec.v` (amplitudes), `CircSem.v` (meaning of operations), `DensSpec.v`, `MatSpec.v`,
`ExprSpec.v`, `GateSpec.v`, `NoiseSpec.v`, `FlatSpec.v`, `NoisySpec.v`, `MeasureSpec.v`, `QaoaSpec.v`, `SimplifySpec.v`, `OptimalSpec.v`, `CoreSpec.v`, `NestSpec.v`, `CopySpec.v`, `DeepSpec.v`, `PartSpec.v`, `GrcsSpec.v`, `IdleSpec.v`, and the `Model*.v` files for what the programs are.

### Modelled

| file in /repo/acqdp | modelled in | not modelled |
|---|---|---|
| tensor_network/tensor_network.py | ModelTN, ModelHist, ModelVal, ModelContract, ModelNest, ModelCopy, ModelDeep, ModelPart | cast, _subtn with names as text, find_order, print and drawing helpers |
| tensor_network/tensor.py | ModelVal, ModelOps, ModelObj | dtype, norm as a float |
| tensor_network/tensor_valued.py | ModelOps | __truediv__, __ipow__, norm (square root) |
| tensor_network/tensor_sum.py | ModelOps, ModelObj | constructor with terms (raises AttributeError), fix_index of sums with networks as terms |
| tensor_network/tensor_view.py | ModelVal (value, conjugate) | fix_index (returns None) |
| tensor_network/compiler.py, contraction.py, contractor.py | ModelContract, ModelScheme | jax backend, thread and process pools, progress output, timing |
| tensor_network/order_finder.py, kahypar_order_finder.py | ModelOrder | the partitioner itself, its configuration files, the choice among several results by cost |
| tensor_network/contraction_tree.py | ModelOrder (from_order, full_order, flip_branch) | cost bookkeeping of the tree |
| tensor_network/undirected_contraction_tree.py | ModelUct, ModelSlice (detect_stem) | - |
| tensor_network/local_optimizer.py | ModelOrder | order_to_subscripts and print_order; subscript_to_path (the path is an oracle) |
| tensor_network/slicer.py | ModelSlice | slice (drawing the candidates), MPSlicer, interrupts, printing |
| utility/opt_einsum_paths.pyx, opt_einsum_helpers.pyx | ModelPath, ModelOpt, ModelDP | random-greedy, cost thresholds as floats (rationals instead) |
| circuit/circuit.py | ModelCircuit, ModelGates, ModelMeasure (measure, collapse) | set_adjoint_op outside the computational basis |
| circuit/converter.py | ModelCircuit | - |
| circuit/noise.py | ModelGates, ModelNoise (add_noise) | - |
| ../demo, ../examples | demo/QAOA/qaoa.py: ModelQaoa; demo/QEC/noise_model.py IdleGate, NoisyHGate and the gates of add_CZ_rotations: ModelQec, add_CZ_rotations: ModelCz, add_idle_noise: ModelIdle; examples/GHZ.py: ModelGhz (its last lines as C61); examples/circuit_simulation.py GRCS: ModelGrcs | the rest of demo/QEC (surface code layout, decoder); in circuit_simulation.py simplify=True and the main program; in qaoa.py the classical optimiser, random parameters and keyword arguments of preprocess |

## Findings: claims that are false of the code

Each has a `_refuted` theorem with a concrete witness unless marked (read only).

Networks and contraction
- A closed edge that no tensor touches is dropped by compile: contract() misses the factor of its dimension (C01_idle_edge_refuted).
- contract() of a nested network can return a wrong array without an error: expanding node 0 calls its inner edge 1 (0, 1), which is also the name complete_delta invents for the second copy of edge 0 when that is open twice (C51_name_clash_refuted). An open edge of a nested network that no node has is dropped when it is summed over (C51_unattached_open_edge_refuted).
- A closed edge fixed to several values is not summed over them (C33_closed_edge_refuted).
- Slicing an open edge of dimension 1 loses an axis; slicing a fixed edge multiplies the result; slicing an edge of dimension 0 fails (C03_dim1_open_edge_refuted, C03_fixed_edge_refuted, C03_dim0_edge_refuted).
- Subtasks share the cells of their slice: creating subtask j changes what an earlier subtask i computes (C05_interleaving_refuted).
- Delta completion invents names that can collide with the user's (C08_name_collision_refuted).
- fix_edge(change_fix=True) overwrites one value only, so that a value can be counted twice (C09_change_fix_refuted).
- A call that raises leaves a half-made edit behind, for nearly every edit call (C14_failed_edits_refuted, C14_refuted_for_each_call, C12_after_failed_call_refuted).
- rewire, merge_edges and update_node on repeated legs accept a wrong dimension (C13_fits_refuted_*).
- Automatic edge names collide with names of the form _k and after copy() (C20_auto_names_fresh_refuted, C20_copy_refuted).
- set_data pairs tensors with nodes by position: names with the same text and supersets of the data are bound wrongly; data given after the preprocessing is ignored by subtasks (C31_*_refuted).
- update_fix after slicing an edge that delta completion made does not match recompiling (C32_sliced_delta_edge_refuted).
- (read only) "parallel" execution passes a list to a merge that expects an array; open_edge ignores bond_dim for an edge that exists; is_valid and is_ready depend on adjacency order; merge_edges documents edges[0] as the default target but takes the last in sorted order; update_dimension does not implement the documented wildcard -1.
- encapsulate of nodes with a fixed edge on the boundary changes the value: the edge is neither open nor fixed inside (C07_fixed_boundary_refuted); encapsulate(edges=[an open edge]) removes it (C07_open_edge_refuted).
- expand overwrites a node called (a, b) by the inner node b of a (C06_name_clash_refuted), raises TypeError when it must merge edges whose names do not compare (C06_mixed_names_refuted) and for every node that holds a view (C06_views_raise), each time with the network half edited. Its comparison function is never negative, so the sorting has no effect.
- copy() shares the lists of legs and of fixed values: rewire and change_fix on a copy change the original (C19_rewire_refuted, C19_change_fix_refuted).

Operators
- a * b is not the tensor product for operands of rank one or more, because both use the edges 0, 1, ...; a * a raises ValueError, a + a KeyError (C17_tensor_product_refuted, C17_mismatch_refuted, C16_add_same_object).
- A failing add_term changes the recorded shape (C18_failed_add_refuted).
- (read only) the constructor of TensorSum with terms raises AttributeError; TensorView.fix_index returns None; TensorView.copy drops the map; an empty TensorSum contracts to the integer 0.
- += on a copy of a tensor (or on a fixed copy, which is a numpy view) changes the original; fix_index on a sum, or on a copy of it, fixes the terms of the sum itself (C49_iadd_refuted, C49_iadd_view_refuted, C49_sum_fix_refuted); a tensor that occurs twice in a sum is fixed twice (C50_shared_term_refuted).
- (read only) after fixing its last index, Tensor.shape raises ValueError because the data is a numpy number.

Orders, paths, schemes
- Order finders fail for nodes named '#' or ('#', _), for paths with wider steps, and pair nothing for fully simplified networks (C21_*_refuted).
- The counter does not see result names that no step uses (C22_result_names_refuted).
- A step with one operand is written to a scheme file but cannot be read (C29_single_operand_refuted).
- == of costs is finer than the ties of <; + of costs drops the number of slices (C30_*_refuted).
- linear_to_ssa of the empty path raises (C26_empty_path_refuted).
- Path optimisers: a single input, a reused BranchBound object, nbranch=0, dimension-1 indices or a memory limit no contraction meets (endless search), scalar operands (C27_*_refuted).
- step_root from an operand raises (C25_step_from_operand_refuted).
- QAOAOptimizer.optimum indexes an assignment by the variable itself: with variables other than 0..n-1 it raises IndexError, or reads the wrong bit for negative ones (C55_optimum_other_labels_refuted). By reading only: preprocess(clauses=subset) replaces self.clauses, after which decorate leaves the phases of the other clauses unset although they are in the light cones; a clause given as a dictionary with a weight makes decorate fail, because dictionaries are not hashable.
- simplify() takes an edge shared by two nodes to disappear when they are merged even if it is open, so it can merge them into a node larger than both (C07_simplify_grows_refuted).
- optimal remembers the result of contracting a pair under the two index sets only; when an index is shared by three operands the remembered result can be wrong and the path returned is not a cheapest one, e.g. {a},{a},{a,b} -> {b} with sizes 3 and 2: 18 operations instead of 15 (C54_hyperedges_refuted).
- The slicer: max_num_slice=-1 (documented as no bound, and the default) means that nothing is sliced; a positive bound can be exceeded because a round may take several edges; an edge can be listed twice, so that k counts too much; IndexError when no edge leaves the stem; when the last optimisation breaks the limit the returned order has been flattened in place and has steps of more than two operands, of which the compiler drops all but two (C53_*_refuted). None is returned on failure, which SlicedOrderFinder yields as if it were a scheme.

Circuits
- append without a name can generate a name already in use and overwrite that operation (C34_name_reuse_refuted); so does | (C37_name_refuted).
- The adjoint drops one of two operations without qubits at one time (C38_no_qubits_refuted), * of two such operations drops one (C45_no_qubits_refuted).
- The adjoint of a ControlledCircuit acts in the wrong order (C38_controlled_circuit_refuted), a ControlledCircuit acts in order of insertion, not time (C40_insertion_order_refuted), Controlled of an empty circuit or of a ControlledCircuit fails (C40_empty_refuted, C40_twice_refuted).
- tensor_density of a SuperPosition raises ValueError (C39_superposition_refuted).
- operation_from_kraus raises TypeError for complex Kraus operators (C41_complex_refuted).
- YGate is minus Pauli Y, and YHalfGate squares to Pauli Y (C42_y_half_refuted).
- (read only) ControlledCircuit.is_pure is always True.
- add_noise raises ValueError when an operation is a circuit whose qubits are not 0, 1, ..., n-1: it appends the noise to positions, not to the circuit's qubits (C57_labels_refuted).
- measure traces out the other outputs by position, so on a circuit whose qubits are not 0, 1, ..., N-1 it adds operations on other qubits and fails with TypeError; collapse names qubits by position, so measuring the first of three qubits with remove_qubit (and the default collapse) leaves the qubits 1 and 2, on which measure fails (C58_labels_refuted).
- GRCS: two lines with the same layer and qubits: the second replaces the first without an error (C62_overwrites). A line with three or more parameters is skipped without an error (C62_skips); by reading, a one-qubit gate word with one parameter is always R_Z.
- IdleGate with the measurement factor lamda is no channel (no Kraus operators) when e^{-d/T_phi} lamda > 1, e.g. without pure dephasing for a time in which sin(2 chi t) is negative (C63_unphysical_refuted); the demo's own parameters are not affected, by estimate.
- add_idle_noise: an operation that was given by hand the name (t, (q,)) of an idle gate is replaced by it without an error (C64_names_refuted). By reading: an ND measurement during an echo makes Dt negative, and the idle gates after `end` are not told of an echo under way.
- add_CZ_rotations does not stop at the first neighbour and puts all gates at one time step: with two neighbours the circuit is not valid, shape raises ValueError (C65_two_neighbours_refuted). add_noisy_surface_code adds the cross talk of all flux dances at one time step, so a D1 qubit between a Z1 and a Z2 is used twice at it, with the same effect (C65_cross_talk_refuted, proved for the two calls concerned). By reading: with params=None, which is handled at the top of add_noisy_surface_code, gamma is unbound at line 186.
