{"id": "C01", "title": "contract() returns the defining sum of the network", "statement": "For a tensor network whose tensors fit the bond dimensions, contracting it returns, at every open index, the sum over all values of the closed edges (restricted to the values an edge was fixed to) of the product of the node entries; repeated open edges give a diagonal.", "quantifier": "every network (any number of nodes, edges, dimensions, hyper-edges, repeated legs), every valid pairwise contraction order, every open index", "why_tests_cant": "a test contracts a handful of networks with one order each; the claim is about all of them", "anchors": ["acqdp/tensor_network/tensor_network.py: TensorNetwork.contract, subscripts", "acqdp/tensor_network/compiler.py: Compiler.compile, _generate_template", "acqdp/tensor_network/contractor.py: Contractor._execute", "acqdp/tensor_network/contraction.py: ContractionTask.execute, _merge"]}
{"id": "C02", "title": "The result does not depend on the contraction order", "statement": "Any two valid contraction orders of the same network produce the same tensor.", "quantifier": "every network, every pair of valid pairwise orders (trees) over its nodes", "why_tests_cant": "the number of orders is super-exponential in the number of nodes", "anchors": ["acqdp/tensor_network/compiler.py: _generate_template", "acqdp/utility/opt_einsum_helpers.pyx: find_contraction", "acqdp/tensor_network/order_finder.py"]}
{"id": "C03", "title": "Slicing does not change the result", "statement": "Contracting with an arbitrary list of sliced edges (open or closed, possibly with repetitions) and merging all subtask results equals the unsliced contraction.", "quantifier": "every network, every list of sliced edges (a repeated edge counts once), every order", "why_tests_cant": "the set of slicings is the power set of the edges; each with a product of dimensions many subtasks", "anchors": ["acqdp/tensor_network/compiler.py: _generate_template_fix, _generate_template", "acqdp/tensor_network/contraction.py: __getitem__, _merge, length"]}
{"id": "C04", "title": "Subtasks enumerate every slice exactly once", "statement": "The subtask indices 0..length-1 of a task correspond one to one to the assignments of the sliced edges, and each subtask result lands in its own slot (or is added) of the merged tensor.", "quantifier": "every list of slice dimensions, every subtask index", "why_tests_cant": "tests use one or two sliced edges of dimension 2", "anchors": ["acqdp/tensor_network/contraction.py: ContractionTask.__getitem__, _merge"]}
{"id": "C05", "title": "A subtask's value does not depend on earlier subtasks", "statement": "Executing a subtask gives the value of the slice that was created last on the same task; in particular a subtask gives its own slice when no other subtask is created between its creation and its execution, whatever else was created or executed before. (When others are created in between, it gives theirs.)", "quantifier": "every interleaving of task[i] creations and executions", "why_tests_cant": "needs all schedules; tests execute in one sequential order", "anchors": ["acqdp/tensor_network/contraction.py: ContractionTask.__getitem__", "acqdp/tensor_network/contractor.py: Contractor.execute"], "full_claim": "Creating or executing other subtasks of the same task between creating and executing subtask i does not change the value of subtask i. (every interleaving of task[i] creations and executions)", "full_claim_status": "false of the code: C05_interleaving_refuted"}
{"id": "C06", "title": "Expanding nested networks preserves the value", "statement": "Replacing the nodes that are themselves networks by those networks' nodes and edges (expand, recursively) succeeds, leaves no network inside the result, and leaves the value at every open index and the shape unchanged, provided no outer name is an extension of the name of an expanded node (there the code overwrites a node), edges that have to be merged have comparable names, and no node holds a view (there expand raises).", "quantifier": "every nesting depth, every wiring of the inner open edges (also the same edge open twice), all dimensions and fixes, every subset of nodes to expand, every order of iteration over sets", "why_tests_cant": "nesting depth and wiring are unbounded", "anchors": ["acqdp/tensor_network/tensor_network.py: expand, add_attribute_to_names, merge_edges, comb_name"]}
{"id": "C07", "title": "Encapsulating a group of nodes preserves the value", "statement": "Replacing a set of nodes, with the edges that only they are attached to, by one node holding the sub-network they span leaves the value at every open index unchanged, provided no edge on the boundary of the set is fixed to a value (there the code is wrong). So do simplify() and the encapsulation of a list of disjoint groups. A recursive simplify() leaves no two nodes sharing an edge that would merge into a node with no more edges than the larger of them, and, unless an open edge belongs to two nodes, no node it makes has more edges than the largest node had before (with such an edge it can).", "quantifier": "every network, every subset of its nodes or of its closed edges whose boundary has no fixed edge, every list of disjoint subsets, every order of iteration over sets", "why_tests_cant": "all subsets of all networks", "anchors": ["acqdp/tensor_network/tensor_network.py: encapsulate, subtn, closed_edges_by_name_from_nodes_by_name", "acqdp/tensor_network/tensor_network.py: simplify"]}
{"id": "C08", "title": "Delta completion preserves the value and normalises the open edges", "statement": "After delta completion the open edges are pairwise distinct, each touches a node and none is fixed, and the value at every open index is unchanged.", "quantifier": "every network, including repeated, unattached and fixed open edges", "why_tests_cant": "all multiplicities and combinations of open edges", "anchors": ["acqdp/tensor_network/tensor_network.py: _complete_delta / complete_delta"]}
{"id": "C09", "title": "Fixing edges and open indices is slicing", "statement": "fix_index(i, v) yields the tensor with the i-th index set to v; fixing an edge twice keeps exactly the common values; fixes on different edges commute.", "quantifier": "every network, every sequence of fixes, all values", "why_tests_cant": "all histories of fixes", "anchors": ["acqdp/tensor_network/tensor_network.py: fix_edge, fix_index", "acqdp/tensor_network/tensor.py: fix_index", "acqdp/tensor_network/tensor_sum.py: fix_index"]}
{"id": "C10", "title": "Merging edges identifies their indices", "statement": "After merging a list of edges, the network's value is the sum over the assignments of the original network in which the merged edges carry equal values, subject to every fix any of them had.", "quantifier": "every network and every duplicate-free list of edges of equal dimension", "why_tests_cant": "all hypergraphs and lists of edges", "anchors": ["acqdp/tensor_network/tensor_network.py: merge_edges"]}
{"id": "C11", "title": "Opening and closing an edge", "statement": "Closing an open edge sums the value over that index; opening an edge splits the sum by its value; opening then closing restores the network's value.", "quantifier": "every network and edge", "why_tests_cant": "all networks", "anchors": ["acqdp/tensor_network/tensor_network.py: open_edge, close_edge"]}
{"id": "C12", "title": "The hypergraph stays consistent under every history of edits", "statement": "After any sequence of successful edit calls every leg of every node is a registered edge, the node-edge incidence agrees with the legs, every open edge is registered, and names stay unique.", "quantifier": "every finite sequence of API calls from the empty network", "why_tests_cant": "unbounded histories", "anchors": ["acqdp/tensor_network/tensor_network.py: add_node, remove_node, pop_node, add_edge, remove_edge, open_edge, close_edge, rewire, merge_edges, fix_edge"]}
{"id": "C13", "title": "Bond dimensions are write-once", "statement": "Once an edge has a bond dimension, no call, successful or not, changes it while the edge exists; update_dimension, add_edge, add_node, and update_node of a node with distinct legs fail when they would give it another one. (rewire, merge_edges and update_node on repeated legs do not check.)", "quantifier": "every finite sequence of API calls", "why_tests_cant": "unbounded histories", "anchors": ["acqdp/tensor_network/tensor_network.py: update_dimension, add_edge, add_node, update_node"], "full_claim": "Once an edge has a bond dimension, no successful call changes it while the edge exists, and a call that would give it another dimension fails. (every finite sequence of API calls)", "full_claim_status": "false of the code: C13_fits_refuted_rewire, C13_fits_refuted_merge_edges, C13_fits_refuted_update_node"}
{"id": "C14", "title": "Failed edits that check first leave the network as it was", "statement": "add_edge, open_edge, close_edge, pop_node, remove_node, fix_edge, fix_index, fix, update_dimension of one edge, and add_node with a name in use leave nodes, edges, dimensions and open edges unchanged when they raise. (Each of the other edit calls has a failing case that does not.)", "quantifier": "every network and every failing call of these", "why_tests_cant": "all states and failure points", "anchors": ["acqdp/tensor_network/tensor_network.py: add_node, update_node, update_dimension, merge_edges", "acqdp/tensor_network/tensor_sum.py: add_term"], "full_claim": "A call that raises leaves nodes, edges, dimensions and open edges unchanged. (every network and every failing call)", "full_claim_status": "false of the code: C14_failed_edits_refuted, C14_refuted_for_each_call"}
{"id": "C15", "title": "Removing and re-adding a node, and insertion order, do not matter", "statement": "pop_node returns exactly the legs and tensor of the node; adding it back restores the value; the value does not depend on the order in which nodes and edges were inserted.", "quantifier": "every network, node and insertion order", "why_tests_cant": "all permutations", "anchors": ["acqdp/tensor_network/tensor_network.py: add_node, pop_node, update_node"]}
{"id": "C16", "title": "Linear operations on tensor-valued objects", "statement": "Addition, subtraction, negation, scalar multiplication, conjugation, transposition and norm_squared act on values as the corresponding tensor operations.", "quantifier": "every pair of different tensor-valued objects of matching, fully known shape (tensors, sums, networks, views, nested arbitrarily)", "why_tests_cant": "objects nest arbitrarily", "anchors": ["acqdp/tensor_network/tensor_valued.py: __add__, __sub__, __neg__, __mul__, norm_squared, conjugate, transpose", "acqdp/tensor_network/tensor_network.py: transpose", "acqdp/tensor_network/tensor_sum.py: transpose"]}
{"id": "C17", "title": "a * b is the tensor product", "statement": "For two different tensor-valued objects, a * b at index (i, j) equals a at i times b at j where the overlapping leading indices of i and j are equal, and 0 elsewhere; it is the tensor product exactly when one operand is a scalar. (The plain claim 'a * b at (i, j) is a at i times b at j' is false of the code: both operands are given the edges 0, 1, 2, ...)", "quantifier": "all pairs of different objects of any ranks whose shapes agree in the overlapping positions", "why_tests_cant": "all ranks and shapes", "anchors": ["acqdp/tensor_network/tensor_valued.py: TensorValued.__mul__"]}
{"id": "C18", "title": "A TensorSum is the sum of the terms currently in it", "statement": "After any history of add_term, update_term and remove_term, contract() is the pointwise sum of exactly the present terms, and shape is their common shape.", "quantifier": "every history of term edits, including failing ones, on terms whose dimensions are all known or whose shape is unknown (refuted when a dimension is partly known: a failed addition changes the cached shape)", "why_tests_cant": "unbounded histories", "anchors": ["acqdp/tensor_network/tensor_sum.py: add_term, update_term, remove_term, shape, _update_shape, contract"]}
{"id": "C19", "title": "copies of a network are isolated from the original", "statement": "After copy() of a network, no edits of the copy change the original or the other way round, except rewire and fix_edge(change_fix=True), which change both. After deepcopy no edits at all do. The copy has the value of the original.", "quantifier": "every network, every program that copies, deep-copies and edits any of the objects in any order, including calls that raise; rewire and change_fix only on objects that copy() has not made share lists", "why_tests_cant": "aliasing bugs need the right history", "anchors": ["acqdp/tensor_network/tensor_network.py: copy, __deepcopy__, rewire, fix_edge, merge_edges, fix"]}
{"id": "C20", "title": "Automatically named edges are new", "statement": "add_edge() without a name returns an edge that was not in the network before.", "quantifier": "every history of calls on one object in which names given by the user are not of the automatic form _k unless they exist already (after copy() the counter starts again and the claim is false)", "why_tests_cant": "unbounded histories", "anchors": ["acqdp/tensor_network/tensor_network.py: add_edge, copy"], "full_claim": "add_edge() without a name returns an edge that was not in the network before. (every history of calls, including copies)", "full_claim_status": "false of the code: C20_auto_names_fresh_refuted, C20_copy_refuted"}
{"id": "C21", "title": "Order finders return complete, well-founded orders", "statement": "The order returned for a network mentions every node exactly once as a leaf, uses every intermediate exactly once after it is produced, and ends in one final tensor.", "quantifier": "every network whose node names are not '#' or ('#', _) (names the finders reserve); every pairwise path or partition an external optimiser may return", "why_tests_cant": "all networks and all optimiser outputs", "anchors": ["acqdp/tensor_network/order_finder.py: OrderFinder.find_order, OptEinsumOrderFinder.find_order", "acqdp/tensor_network/local_optimizer.py: path_to_paired_order, order_to_contraction_scheme", "acqdp/tensor_network/contraction.py: OrderCounter"]}
{"id": "C22", "title": "Fresh intermediate names", "statement": "The counter for intermediate tensors never returns a name already used by the order it was created from nor one it returned before.", "quantifier": "every complete contraction order (for other orders: every operand name) and every number of draws", "why_tests_cant": "unbounded draws", "anchors": ["acqdp/tensor_network/contraction.py: OrderCounter"]}
{"id": "C23", "title": "Flattening an order keeps the contraction it denotes", "statement": "Flattening a hierarchical (grouped) order, or grouping steps, keeps the set of leaves below every final tensor and the validity of the order.", "quantifier": "every order with arbitrarily nested groups", "why_tests_cant": "arbitrary nesting", "anchors": ["acqdp/tensor_network/local_optimizer.py: _flatten_order, optimize"]}
{"id": "C24", "title": "Contraction trees serialise back to valid orders", "statement": "Building a contraction tree from a valid order and serialising it gives a valid order over the same leaves with the same tree.", "quantifier": "every valid order / binary tree", "why_tests_cant": "all trees", "anchors": ["acqdp/tensor_network/contraction_tree.py: ContractionTree.from_order, full_order"]}
{"id": "C25", "title": "Undirected contraction trees give valid paths", "statement": "Building the undirected tree from a valid pairwise path and reading a path off it gives the same contraction tree; after any sequence of tree edits the path read off is valid, from whichever edge the tree is rooted, and each edit changes exactly the edges it names.", "quantifier": "every equation with at least two operands, every valid pairwise path, every sequence of edits with arguments that fit the tree, every root edge (the root is not stepped from an end that is an operand)", "why_tests_cant": "all trees and rotations", "anchors": ["acqdp/tensor_network/undirected_contraction_tree.py: __init__, get_path, switch_edges"]}
{"id": "C26", "title": "SSA and linear contraction paths are inverse encodings", "statement": "Converting a valid linear path to SSA form and back returns the same path, and both forms denote the same contraction tree.", "quantifier": "every non-empty valid path of any length and arity", "why_tests_cant": "all paths", "anchors": ["acqdp/utility/opt_einsum_paths.pyx: ssa_to_linear, linear_to_ssa"]}
{"id": "C27", "title": "Path optimisers return valid paths", "statement": "The bundled path optimisers return paths whose steps always refer to existing operands and leave exactly one operand.", "quantifier": "every list of at least two inputs with known sizes (greedy and trees: at least one), every memory limit, every heuristic choice, each call of a fresh optimiser; for the dynamic programming optimiser, every input list with a kept or shared index, and its termination for every network whose dimensions are at least two and no memory limit", "why_tests_cant": "all inputs", "anchors": ["acqdp/utility/opt_einsum_paths.pyx: ssa_greedy_optimize, optimal, DynamicProgramming, _tree_to_sequence", "acqdp/utility/opt_einsum_paths.pyx: BranchBound, greedy, auto, _find_disconnected_subgraphs"]}
{"id": "C28", "title": "find_contraction keeps exactly the indices still needed", "statement": "The indices kept by one pairwise step are those of the contracted operands that occur in another remaining operand or the output; the removed ones are the others; flop counts are the product of the dimensions involved times the operation factor.", "quantifier": "all operand lists and positions", "why_tests_cant": "all inputs", "anchors": ["acqdp/utility/opt_einsum_helpers.pyx: find_contraction, flop_count, compute_size_by_dict"]}
{"id": "C29", "title": "Saved contraction schemes load back unchanged", "statement": "Dumping a contraction scheme to JSON text form and loading it returns the same order, sliced edges and costs.", "quantifier": "every scheme whose steps are pairwise, with string, integer and arbitrarily nested tuple names", "why_tests_cant": "arbitrary nesting", "anchors": ["acqdp/tensor_network/contraction.py: ContractionScheme.dump, load"]}
{"id": "C30", "title": "Contraction costs compare and add consistently", "statement": "Equality, ordering and addition of costs are consistent: < is a strict weak order, == an equivalence compatible with it, and adding costs adds the flop counts and keeps the largest intermediate.", "quantifier": "all costs; the totals of sums for costs without slices", "why_tests_cant": "all numbers", "anchors": ["acqdp/tensor_network/contraction.py: ContractionCost"]}
{"id": "C31", "title": "set_data binds each tensor to its own node", "statement": "After set_data(d), executing the task uses d[n] for node n, for every insertion order of d; after any sequence of set_data, update_fix and execute, every execution gives the value of the network with the last data and the last fixes.", "quantifier": "all data dictionaries whose keys are exactly the nodes of the compiled network, all sets of node names that can be compared with each other or have different string forms, all sequences of calls", "why_tests_cant": "name sorting can tie or fail only for unusual names", "anchors": ["acqdp/tensor_network/contraction.py: set_data, _load_data"], "full_claim": "After set_data(d), executing the task uses d[n] for node n, for every insertion order of d and every set of node names. (all name sets and dictionary orders)", "full_claim_status": "false of the code: C31_equal_string_forms_refuted, C31_superset_refuted"}
{"id": "C32", "title": "Re-fixing a compiled task equals recompiling", "statement": "update_fix(tn) on a compiled task makes it compute what compiling tn from scratch computes, when the same closed edges are fixed.", "quantifier": "all networks and all new fix values", "why_tests_cant": "all values", "anchors": ["acqdp/tensor_network/contraction.py: update_fix", "acqdp/tensor_network/compiler.py"]}
{"id": "C33", "title": "Fixes restrict the sum to the fixed values", "statement": "Contraction sums a fixed edge over exactly the values it is fixed to: a closed edge fixed to one value or to none (the result is then zero), an open edge fixed to any set of values (the other entries are zero).", "quantifier": "all networks with such fixes (a closed edge fixed to several values is contracted wrongly)", "why_tests_cant": "tests fix single values", "anchors": ["acqdp/tensor_network/tensor_network.py: fix_edge", "acqdp/tensor_network/contraction.py: __getitem__, preprocess", "acqdp/tensor_network/contractor.py: _execute"], "full_claim": "A closed edge fixed to a set of values contributes the sum over exactly these values. (all networks and sets of values)", "full_claim_status": "false of the code: C33_closed_edge_refuted"}
{"id": "C34", "title": "Every appended operation is kept and applied in time order", "statement": "After any sequence of append calls the circuit contains every appended operation, and operations act in non-decreasing time step; appending without a time step places the operation after all others.", "quantifier": "all sequences of append calls with distinct (given or generated) names, any times and qubits", "why_tests_cant": "unbounded histories", "anchors": ["acqdp/circuit/circuit.py: Circuit.append, operations_by_time, max_time"]}
{"id": "C35", "title": "Circuit shape reports exactly the free inputs and outputs", "statement": "A qubit is an input of a circuit iff its first use consumes it and an output iff its last use produces it; a circuit is valid iff uses alternate and no qubit is used twice at one time step.", "quantifier": "all circuits", "why_tests_cant": "all sequences of uses", "anchors": ["acqdp/circuit/circuit.py: Circuit.shape, is_valid, _input_indices, _output_indices"]}
{"id": "C36", "title": "tensor_pure of a circuit is the time-ordered product of its operations", "statement": "The tensor network of a valid pure circuit has as its value, between any output and input bit strings, the time-ordered composition of the operations' amplitudes.", "quantifier": "all valid circuits: any number of qubits, operations, measurements and re-preparations, nested circuits", "why_tests_cant": "all circuits", "anchors": ["acqdp/circuit/converter.py: Converter.convert_pure", "acqdp/circuit/circuit.py: Circuit"]}
{"id": "C37", "title": "Sequential composition a | b", "statement": "The amplitude of a | b is the composition: first a, then b.", "quantifier": "all pairs of well-formed pure operations or circuits whose uses alternate, with comparable qubit names and no operation of the first named like a default name for a later time", "why_tests_cant": "all circuits", "anchors": ["acqdp/circuit/circuit.py: Circuit.__or__"]}
{"id": "C38", "title": "Adjoint of operations and circuits", "statement": "The tensor of ~op is the conjugate of op's tensor with inputs and outputs exchanged; ~(~op) has op's tensor; for circuits the order of operations is reversed.", "quantifier": "all well-formed pure operations and circuits in which what is flagged self-adjoint is so, no two operations without qubits stand at one time, and there is no controlled circuit", "why_tests_cant": "all circuits", "anchors": ["acqdp/circuit/circuit.py: adjoint (PureOperation, ControlledOperation, SuperPosition, Circuit)"]}
{"id": "C39", "title": "Density semantics agree with pure semantics", "statement": "For a circuit of pure operations the density tensor at (o, i, o', i') is amplitude(o, i) times the conjugate of amplitude(o', i').", "quantifier": "all valid pure circuits, nested to any depth, that contain no SuperPosition (whose density the package does not support)", "why_tests_cant": "all circuits", "anchors": ["acqdp/circuit/converter.py: Converter.convert_density"]}
{"id": "C40", "title": "Controlled operations", "statement": "Controlled(op) acts as the identity when the control bit is off and as op when it is on; controlled circuits act as the controlled product of the circuit in time order.", "quantifier": "all well-formed pure operations all of whose wires run through them, any nesting of controls; all non-empty circuits of such operations appended in time order, controlled once", "why_tests_cant": "all circuits", "anchors": ["acqdp/circuit/circuit.py: Controlled, ControlledOperation, ControlledCircuit", "acqdp/circuit/converter.py: convert_pure (ControlledCircuit)"]}
{"id": "C41", "title": "Noise channels are trace preserving", "statement": "Depolarization(px, py, pz), Dephasing(pz) and AmplitudeDampling(p) are the stated Kraus channels and preserve the trace; operation_from_kraus returns the sum over the operators K of K(o,i) conj K(o',i').", "quantifier": "all real parameters (probabilities where square roots of them are taken), all families of real Kraus operators", "why_tests_cant": "real parameters", "anchors": ["acqdp/circuit/noise.py: Depolarization, Dephasing, AmplitudeDampling", "acqdp/circuit/circuit.py: Channel / operation_from_kraus"]}
{"id": "C42", "title": "Named gates satisfy their algebra", "statement": "Each named gate has its textbook matrix (YGate is minus Pauli Y), is unitary, its ~ has the conjugate-transposed matrix and undoes it; XRotation, ZRotation, ZZRotation and XXRotation of angle t are exp(i t P), so that angles add, ~ negates the angle and 0 is the identity; SGate squares to ZGate, TGate to SGate, XHalfGate to XGate and YHalfGate to Pauli Y (minus YGate); the state and measurement constants are orthonormal bases.", "quantifier": "all real angles, and the finite set of constants", "why_tests_cant": "real parameters", "anchors": ["acqdp/circuit/circuit.py: gate constants, XRotation, ZRotation, ZZRotation, XXRotation"]}
{"id": "C43", "title": "The memory guard", "statement": "compile fails exactly when the scheme's largest intermediate exceeds the configured memory.", "quantifier": "all costs and limits", "why_tests_cant": "all numbers", "anchors": ["acqdp/tensor_network/compiler.py: Compiler.compile"]}
{"id": "C44", "title": "The cost recorded by an undirected contraction tree is the cost of its path", "statement": "After construction and after any sequence of edits the cost the tree reports equals the cost of the path it returns, computed from the operands' subscripts alone.", "quantifier": "every equation with at least two operands, every valid pairwise path, every sequence of edits with arguments that fit the tree", "why_tests_cant": "incremental cost updates must agree with recomputation on every history of edits", "anchors": ["acqdp/tensor_network/undirected_contraction_tree.py: compute_node_cost, compute_root_cost, switch_edges, step_root, merge_branches"]}
{"id": "C45", "title": "Parallel composition a * b", "statement": "The amplitude of a * b between the joined output and input bit strings is the product of the amplitudes of a and b; the qubits of a come first.", "quantifier": "all pairs of well-formed pure operations with at least one qubit between them whose uses alternate", "why_tests_cant": "all operations of all sizes", "anchors": ["acqdp/circuit/circuit.py: Operation.__mul__"]}
{"id": "C46", "title": "Expressions of gates", "statement": "Every expression built from gates with |, *, ~ and Controlled evaluates to an operation whose tensor is the matrix product, Kronecker product, conjugate transpose or controlled matrix of the tensors of the parts; if the gates are unitary, so is the whole.", "quantifier": "all expressions over all gates (operations with one input and one output per qubit) in which | joins equal numbers of qubits, ~ is not applied over Controlled, and Controlled is not applied over Controlled or the ~ of a composition", "why_tests_cant": "all expression trees of all depths over all gates", "anchors": ["acqdp/circuit/circuit.py: Operation.__or__, __mul__, __invert__, Controlled, tensor_pure", "acqdp/circuit/converter.py: convert_pure"]}
{"id": "C47", "title": "Circuits preserve the trace", "statement": "A circuit all of whose operations preserve the trace (unitary gates, prepared states, channels, discarding a qubit) has a density tensor that preserves the trace; a pure operation preserves it exactly when its tensor A satisfies A* A = 1.", "quantifier": "all circuits (any number, order and nesting of operations) for which tensor_density is defined, i.e. without superpositions", "why_tests_cant": "all circuits of all sizes over all data", "anchors": ["acqdp/circuit/circuit.py: Circuit.append, tensor_density", "acqdp/circuit/converter.py: convert_density"]}
{"id": "C48", "title": "Density tensors are density matrices", "statement": "The density tensor of every circuit over the package's unitary gates, states, noise channels, measurement, discarding and trace-preserving Kraus operations has Kraus operators; if the circuit has no inputs its density tensor is Hermitian and positive with trace 1, so its diagonal is a probability distribution.", "quantifier": "all such circuits, all angles and all probabilities", "why_tests_cant": "all circuits of all sizes with real parameters", "anchors": ["acqdp/circuit/circuit.py: Circuit, tensor_density", "acqdp/circuit/converter.py: convert_density", "acqdp/circuit/noise.py"]}
{"id": "C49", "title": "Copies of tensors and sums are isolated", "statement": "After deepcopy of a tensor or sum nothing done with the copy changes an older object, and nothing done with the older objects changes the copy. After copy() of a tensor this holds for everything but +=, after copy() of a sum for adding, replacing and removing terms. In each case the copy has the value of the original.", "quantifier": "every store of tensors and (nested) sums that may share terms and arrays, every program of statements over variables (new tensors and sums, copy, deepcopy, add_term, update_term, remove_term, fix_index, +=), including statements that raise", "why_tests_cant": "sharing shows only for the right sequence of later statements", "anchors": ["acqdp/tensor_network/tensor.py: copy, __deepcopy__, fix_index, __iadd__", "acqdp/tensor_network/tensor_sum.py: copy, __deepcopy__, add_term, update_term, remove_term, fix_index"]}
{"id": "C50", "title": "Fixing an index of a sum fixes it in the value", "statement": "fix_index on a sum returns an object whose value at every index is the value of the sum with the fixed index inserted.", "quantifier": "every (nested) sum of tensors no object of which occurs twice, every index and every value in range", "why_tests_cant": "all nestings, shapes and indices; sharing between terms", "anchors": ["acqdp/tensor_network/tensor_sum.py: fix_index", "acqdp/tensor_network/tensor.py: fix_index"]}
{"id": "C51", "title": "contract() of nested objects returns their array", "statement": "contract() of a tensor, a sum, a view or a network whose nodes hold tensors, sums and networks, nested to any depth, returns an array with the shape and the entries of the object. The result does not depend on the order finder, the memory limit or the order in which sets are iterated. False without the guards: the array is silently wrong if an invented edge name coincides with the name of an inner edge, or if a nested network has an open edge that no node has and that is summed over.", "quantifier": "every object built from tensors with data, non-empty sums of terms of one shape, views (not inside nodes) and networks with known shapes, whose fixed edges have at most one value each (edges that nested networks join may be fixed to values that contradict each other) or whose closed edges, as joined, are fixed to one value, and in which every set of edges so joined has one that is open, fixed or at another tensor, and names do not clash; every finder that returns valid schemes of acceptable cost, in particular the default one; every iteration order of sets", "why_tests_cant": "all nestings, shapes, schemes and names", "anchors": ["acqdp/tensor_network/tensor_network.py: contract, _expand_and_delta, expand", "acqdp/tensor_network/compiler.py: compile", "acqdp/tensor_network/tensor_sum.py: contract", "acqdp/tensor_network/tensor_view.py: contract", "acqdp/tensor_network/order_finder.py: OrderFinder.find_order"]}
{"id": "C52", "title": "Contracting a network part by part does not change the result", "statement": "partial_contract() on chosen nodes and edges replaces exactly these by one node whose array is that of the part, leaves the other nodes, edges and the open edges as they were, and does not change the value of the network. After any number of calls on any parts, contract() returns the array of the network as it was before the first.", "quantifier": "every network contract() is right for (C51) whose nested networks have no edge that is open twice; every list of calls with valid choices of nodes, edges, open edges (without repetition) and a free, unreserved name, in particular disjoint groups of nodes; no edge on the boundary of a part is fixed; every iteration order of sets; every finder that returns valid schemes of acceptable cost for one call, the default finder for sequences", "why_tests_cant": "all networks, parts and sequences of calls", "anchors": ["acqdp/tensor_network/tensor_network.py: partial_contract, encapsulate, _subtn, contract, update_node"]}
{"id": "C53", "title": "A sliced scheme found by the slicer is usable", "statement": "Given candidate orders of a network, the slicer either raises IndexError, or gives up (and then the allowed number of slices was used up, or early termination applied), or returns a scheme whose order contracts every node exactly once, whose sliced edges are unfixed edges of nodes of the network, whose cost keeps the limit 2**max_tw, has as k the length of the list of slices, and is the price of that order on the network without the sliced edges. At most nine more edges than max_num_slice are listed, and none when every candidate keeps the limit. Contracting with a scheme of pairwise steps gives the value of the network. Not claimed, because false: that the bound max_num_slice is kept, that -1 means no bound (nothing is sliced then), that edges are listed once, that no exception is raised, that the order is pairwise when the last local optimisation breaks the limit.", "quantifier": "every network whose nodes have edges of dimension 2 or more, every non-empty list of complete pairwise candidate orders, every max_tw, max_num_slice and number of optimisation rounds, every random choice, price, path and listing of sets", "why_tests_cant": "all networks, orders, heuristics' outcomes and numbers of rounds", "anchors": ["acqdp/tensor_network/slicer.py: Slicer._slice, Slicer._biggest_weight_edge", "acqdp/tensor_network/undirected_contraction_tree.py: detect_stem, switch_branches, get_path", "acqdp/tensor_network/order_finder.py: SlicedOrderFinder.find_order"]}
{"id": "C54", "title": "The exhaustive optimiser returns a cheapest pairwise path", "statement": "optimal(inputs, output, size_dict) without a memory limit returns a valid pairwise path, and no valid pairwise path needs fewer operations, counting for every step one multiplication per value of the indices of its two operands and as many additions when an index they share is summed over. auto does the same for two to four operands. The promise needs every index to occur in at most two of the operands and the output: with an index shared by three operands a more expensive path may be returned, because results of pairs are remembered without the operands that were left.", "quantifier": "every list of at least two index sets, every output set and every table of nonnegative sizes in which no index occurs in three places, every order of iteration over sets, and every competing pairwise path", "why_tests_cant": "the comparison ranges over all pairwise paths of every network", "anchors": ["acqdp/utility/opt_einsum_paths.pyx: optimal, calc_k12_flops, auto", "acqdp/utility/opt_einsum_helpers.pyx: flop_count"], "full_claim": "The path returned by optimal without a memory limit is a cheapest pairwise path, whatever the network.", "full_claim_status": "false: C54_hyperedges_refuted"}
{"id": "C55", "title": "The QAOA demo returns the energy of the full circuit", "statement": "After preprocess, every call of query of QAOAOptimizer returns <psi|C|psi>, where psi is the state of the full circuit on all the variables with the queried angles, although each compiled task only has the gates in the light cone of one clause and is reused for all queries. The network of a clause only has variables that can be reached from it in as many steps as there are layers. The energy is a real number between the least and the greatest cost of an assignment. optimum returns the least cost when the variables are 0..n-1; with other variables it fails with IndexError.", "quantifier": "every problem of real-valued clauses on integer variables, every number of layers above 0, every order in which sets are listed, every contraction order, list of sliced edges and sufficient memory per clause, every sequence of queries with any real angles", "why_tests_cant": "the identity is between sums over all assignments and must hold for every problem and all real angles; the reuse of tasks must hold for every history of queries", "anchors": ["demo/QAOA/qaoa.py: XRot, QAOAOptimizer.lightcone, decorate, preprocess_clause, preprocess, query, energy, optimum"], "full_claim": "optimum returns the least cost for every problem.", "full_claim_status": "false: C55_optimum_other_labels_refuted"}
{"id": "C56", "title": "A circuit inside a circuit means its operations", "statement": "Appending a circuit to a circuit as one operation gives the tensor that appending its operations one by one gives: the i-th qubit of the inner circuit in sorted order is the i-th qubit it was appended on, the inner operations run in their order of time, and the whole inner circuit runs at its time step of the outer one. This holds for pure tensors and for density tensors, at any depth, so how operations are grouped into circuits does not matter.", "quantifier": "every well-formed operation that has a shape, nested to any depth, with any names of qubits, wires that are created or measured inside, and every flat list of its operations that respects time at each level", "why_tests_cant": "nesting depth, placement and the number of operations are unbounded, and the identity is between sums over all inner wires", "anchors": ["acqdp/circuit/circuit.py: Circuit.append, Circuit.tensor_pure, Circuit.tensor_density, Circuit.shape, Circuit.all_qubits, Circuit.operations_by_time"]}
{"id": "C57", "title": "add_noise puts the channel after each operation, on each qubit it outputs", "statement": "add_noise(circuit, channel) returns a circuit with the names, times and qubits of the given one, whose density tensor is that of the operations in order of time, each followed by the channel on every qubit that the operation outputs. It preserves the trace when the channel and the operations do, and a channel that does nothing leaves the density tensor unchanged. An operation that is itself a circuit must have the qubits 0, 1, ..., n-1: with other names add_noise raises ValueError.", "quantifier": "every well-formed circuit that has a shape, without superpositions, whose operations that are circuits are numbered from 0, any number of qubits and operations, any nesting, and every one-qubit channel", "why_tests_cant": "circuits, channels and nesting are unbounded, and the identity is between sums over all inner wires", "anchors": ["acqdp/circuit/noise.py: add_noise", "acqdp/circuit/circuit.py: Circuit.append, Operation.__or__, Operation.tensor_density"], "full_claim": "The same for circuits whose operations are circuits with any names of qubits.", "full_claim_status": "false: C57_labels_refuted"}
{"id": "C58", "title": "measure follows the Born rule and leaves the state that belongs to the outcome", "statement": "Circuit.measure(q) on a circuit without inputs draws its outcome with the probability that the density matrix of the circuit gives to outcome 1 of qubit q. For every outcome that can be drawn, the circuit it returns prepares the normalised state given that outcome - of the other qubits with remove_qubit, otherwise of all qubits - which is again a density matrix; without collapse the register is the same, so more qubits can be measured. collapse() of a circuit without inputs gives one operation that prepares the same state, and raises ValueError if there are inputs. The qubits must be called 0, 1, ..., N-1 for measure: on other names, such as those which collapse leaves after remove_qubit, measure fails.", "quantifier": "every well-formed circuit without inputs and superpositions on the qubits 0..N-1 that prepares a density matrix (all circuits of the package's states, gates and channels do), every output qubit, every outcome of non-zero probability, both values of remove_qubit and collapse, any number of qubits and operations", "why_tests_cant": "circuits and states are unbounded, the outcome is random, and the identity is between sums over all inner wires", "anchors": ["acqdp/circuit/circuit.py: Circuit.measure, Circuit.collapse, Circuit.append, Trace, OneMeas, CompMeas, CompState"], "full_claim": "The same for circuits on any qubits.", "full_claim_status": "false: C58_labels_refuted"}
{"id": "C59", "title": "contract() of a circuit's tensor returns its amplitudes, and of its density tensor the entries of its channel", "statement": "For every well-formed operation or circuit whose data are arrays or wirings (networks without nodes, such as those of IGate, SWAPGate, Trace and NDCompMeas): tensor_density.contract() with the default order finder returns, without an error, an array with bonds of dimension 2 for the outputs, the inputs and their copies, and its entries are those of the channel of the circuit, whose operations act in order of time; if the circuit is pure, tensor_pure.contract() returns an array with bonds of dimension 2 for the outputs and the inputs, and its entries are the amplitudes of the circuit. Circuits may be nested to any depth and contain controlled circuits. All states, gates and channels of the package, and all circuits of them, meet this. Superpositions as components are left out, and no operation may be called '*' or '#'.", "quantifier": "every circuit of any number of operations and qubits, nested to any depth, every order in which Python iterates over sets, every path the path optimiser returns, every cost estimate within the memory limit", "why_tests_cant": "circuits, nesting, schemes and set orders are unbounded; the claim joins the conversion of a circuit to a nested network, expand, the order finder and the contraction", "anchors": ["acqdp/circuit/circuit.py: Operation.tensor_density, Circuit.tensor_pure, Circuit.tensor_density, ControlledOperation, ControlledCircuit, ImmutableOperation", "acqdp/tensor_network/tensor_network.py: TensorNetwork.contract, expand, compile, _execute", "acqdp/tensor_network/order_finder.py: OrderFinder.find_order"]}
{"id": "C60", "title": "GHZState(n) prepares the GHZ state", "statement": "For every n >= 1 the circuit that examples/GHZ.py builds with GHZState(n) has n outputs and no inputs, and contracting its tensor returns an array with n axes of dimension 2 whose entry is 1/sqrt(2) at 00...0 and at 11...1 and 0 everywhere else.", "quantifier": "every number of qubits n >= 1, every entry of the array, every contraction order that the default finder can pick (any path optimiser, cost function and memory limit that admits the result)", "why_tests_cant": "A test can only contract the state for a few small n; the array has 2^n entries and the claim is about all n.", "anchors": ["examples/GHZ.py:GHZState", "acqdp/circuit/circuit.py:Circuit.append", "acqdp/circuit/circuit.py:Operation.tensor_pure", "acqdp/tensor_network/tensor_network.py:TensorNetwork.contract"]}
{"id": "C61", "title": "a | b composes channels, and (b | a.adjoint()) contracts to the overlap of b with the state of a", "statement": "For circuits that may contain channels, the density tensor of a | b is the composition of the two channels, first a then b. If a prepares a pure state and b any, possibly noisy, state of the same qubits, then (b | a.adjoint()).tensor_density.contract() is the number <a|b|a>. So the last lines of examples/GHZ.py, for any number n >= 1 of qubits and any one-qubit noise channel, return half the sum of the four entries of the noisy density matrix between 00...0 and 11...1, and 1 when no noise is added.", "quantifier": "every pair of circuits whose outputs and inputs match (C61_or); every pure reversible circuit a and every circuit b preparing a state of the same qubits; every n >= 1 and every one-qubit channel; every contraction order the default finder can pick", "why_tests_cant": "The printed number of one run cannot be told from a slightly wrong one, and the density matrix it summarises has 4^n entries; the claim is about all circuits, channels and n.", "anchors": ["examples/GHZ.py", "acqdp/circuit/circuit.py:Operation.__or__", "acqdp/circuit/circuit.py:Circuit.adjoint", "acqdp/circuit/circuit.py:Operation.tensor_density", "acqdp/circuit/noise.py:add_noise", "acqdp/tensor_network/tensor_network.py:TensorNetwork.contract"]}
{"id": "C62", "title": "GRCS reads a file into the circuit it describes", "statement": "For a file with n in its first line whose lines name gates of the table (h, x_1_2, y_1_2, hz_1_2, t, cz, is, rz with one parameter, fs with two, in either case), GRCS(f, in_state=s) returns a circuit on the qubits 0, ..., n-1, and contracting its tensor_pure returns the state obtained from the computational basis state s (qubit 0 the most significant bit) by applying the matrices the format prescribes, layer by layer: sqrt(X), sqrt(Y), sqrt((X+Y)/sqrt 2), diag(1, e^{i pi/4}), CZ, iSWAP, diag(1, e^{i t}) and fSim(t, p). Gates of one layer act on different qubits. When they do not, a second line for the same layer and qubits silently replaces the first; a line with three or more parameters is silently skipped.", "quantifier": "every n, every file of such lines in any order of the lines, every initial state s (negative ones in two's complement), all real parameters, all readings of int() and float(), every contraction order the default finder can pick", "why_tests_cant": "There are unboundedly many files and parameters, and the amplitudes of one file are 2^n numbers; a wrong matrix in one entry or a swapped bit order shows only on particular gates and states.", "anchors": ["examples/circuit_simulation.py:GRCS", "acqdp/circuit/circuit.py:Circuit.append", "acqdp/circuit/circuit.py:Operation.tensor_pure", "acqdp/tensor_network/tensor_network.py:TensorNetwork.contract"]}
{"id": "C63", "title": "The noise of demo/QEC is physical", "statement": "IdleGate(d) preserves the trace; the excited population decays as e^{-d/T_1}, the coherences as e^{-d(1/T_1+1/T_phi)/2}; idling for d1 and then d2 is idling for d1+d2. The extra factor after a measurement is exp(-2 chi alpha e^{-kappa Dt} I), I the integral of e^{-kappa t} sin(2 chi t) from start to end. The gate has Kraus operators exactly when the total factor e^{-d/T_phi} lamda is at most 1, which fails for some admissible parameters. NoisyHGate is the Hadamard gate followed by X, Y, Z with the probabilities p_axis/4, p_plane/2-p_axis/4, p_axis/4. The gates of add_CZ_rotations are the unitary controlled phase gates they should be. Every circuit of these and of the package's operations preserves the trace and has Kraus operators.", "quantifier": "all real durations, parameters and angles in the stated ranges; every circuit, nested to any depth", "why_tests_cant": "The parameters are continuous, and positivity of a channel is a statement about all states; the failing parameters are outside those of the demo.", "anchors": ["demo/QEC/noise_model.py:IdleGate", "demo/QEC/noise_model.py:NoisyHGate", "demo/QEC/noise_model.py:add_CZ_rotations", "acqdp/circuit/noise.py:Depolarization", "acqdp/circuit/circuit.py:Channel"]}
{"id": "C64", "title": "add_idle_noise fills every gap of every qubit once", "statement": "add_idle_noise(circuit, start, end) keeps every operation of the circuit and adds, for each qubit and each two operations next to each other in its life with time between them, the first of which is no Measurement and the second no State, exactly one idle gate on that qubit: it lasts as long as the gap, sits in its middle, and is told the times of the echo that is under way (begun by a noisy Hadamard gate after an ND measurement, ended by the next). A start, if given, counts as an operation on every qubit at that time; an end, if given and later than the last operation on a qubit that is no Measurement, closes one more gap, without echo. It adds nothing else. The circuit stays valid, and it stays trace preserving with Kraus operators if the idle gates are physical (C63). Guard: the start is not after an operation, and no operation was given by hand the name of an idle gate; such an operation can be lost.", "quantifier": "every circuit, with any number of qubits and operations at any times, and every assignment of classes and names to operations", "why_tests_cant": "The loop keeps three dictionaries over interleaved operations on all qubits; that each qubit is treated as if it were alone must hold for every interleaving.", "anchors": ["demo/QEC/noise_model.py:add_idle_noise", "demo/QEC/noise_model.py:IdleGate", "acqdp/circuit/circuit.py:Circuit.append", "acqdp/circuit/circuit.py:Circuit.operations_by_time"]}
{"id": "C65", "title": "add_CZ_rotations couples every diagonal pair of neighbours once", "statement": "add_CZ_rotations(circuit, high, low, time_step, angles) appends, for each qubit of high and each qubit of low diagonally next to it, exactly one two-qubit gate on the two in this order at time_step, whose angle is the one given for the first qubit; it changes nothing else. The new gates share no qubit if each qubit has at most one neighbour in the other group. Otherwise the circuit is not valid, which happens when the cross talk of the noisy surface code is added.", "quantifier": "every two lists of qubits without repetition, every circuit, time step and choice of angles that covers the first list", "why_tests_cant": "Layouts of any size and place in the plane; that no pair is missed, doubled or oriented wrongly must hold for all of them.", "anchors": ["demo/QEC/noise_model.py:add_CZ_rotations", "demo/QEC/noise_model.py:add_noisy_surface_code", "acqdp/circuit/circuit.py:Circuit.append", "acqdp/circuit/circuit.py:Circuit.shape"]}
