import json
P=[]
def p(title,stmt,quant,why,anchors):
    P.append(dict(id="C%02d"%(len(P)+1),title=title,statement=stmt,quantifier=quant,why_tests_cant=why,anchors=anchors))
p("Standardization preserves the computation",
 "For every runnable pattern for which Pattern.standardize / StandardizedPattern.from_pattern(...).to_pattern() does not raise, and for every assignment of measurement outcomes, running the standardized pattern on any input state yields the same final (un-normalised) state as the original pattern, up to one global unit phase that does not depend on the input state.",
 "all runnable patterns (any number of commands, nodes, domains, angles, Cliffords), all outcome branches, all input states",
 "Tests run some random patterns of bounded size on one branch; the claim is over all command sequences and all 2^n branches.",
 ["graphix/optimization.py:StandardizedPattern.from_pattern","graphix/optimization.py:StandardizedPattern.to_pattern","graphix/optimization.py:_commute_clifford"])
p("Standardized patterns are in N,E,M,Z,X,C order",
 "The pattern returned by standardize lists its commands in the order N, E, M, Z, X, C, contains no other command kind, has the same input nodes and output nodes, measures and prepares exactly the same nodes in the same relative order, and contains each correction/Clifford node at most once; Pattern.is_standard accepts it whenever it has no Clifford command.",
 "all runnable patterns accepted by standardize","Must hold for every command sequence.",
 ["graphix/optimization.py:StandardizedPattern.to_pattern","graphix/pattern.py:Pattern.is_standard"])
p("Standardization preserves runnability",
 "If a pattern passes check_runnability then its standardized form passes check_runnability too.",
 "all patterns","Quantifies over all command sequences and causal orders.",
 ["graphix/pattern.py:Pattern.check_runnability","graphix/optimization.py:StandardizedPattern.from_pattern"])
p("Runnability check is exact",
 "Pattern.check_runnability succeeds iff: every node is prepared at most once and inputs are not re-prepared; every command acts only on nodes that are prepared and not yet measured; every node of every domain has been measured strictly before.",
 "all command sequences","A finite suite cannot show that no bad pattern is accepted and no good one rejected.",
 ["graphix/pattern.py:Pattern.check_runnability"])
p("Pattern container invariants",
 "After any sequence of Pattern.add/extend starting from Pattern(input_nodes), output_nodes lists exactly the nodes that are inputs or prepared and not measured, without duplicates, and n_node equals the number of inputs plus the number of N commands; reorder_output_nodes accepts exactly the permutations of output_nodes.",
 "all histories of add/extend calls","Histories are unbounded.",
 ["graphix/pattern.py:Pattern.add","graphix/pattern.py:Pattern.extend","graphix/pattern.py:Pattern.reorder_output_nodes"])
p("Signal shifting preserves the computation",
 "Pattern.shift_signals (methods 'direct' and 'mc') returns a pattern whose branch o' equals the branch o of the original pattern up to phase, where o and o' are related by shift_outcomes with the returned signal dictionary.",
 "all runnable patterns, all branches","Quantifies over all patterns and exponentially many branches.",
 ["graphix/pattern.py:Pattern.shift_signals","graphix/pattern.py:shift_outcomes","graphix/pattern.py:Pattern.extract_signals"])
p("Clifford tables agree with the matrices",
 "For all Clifford gates a, b: (a @ b).matrix equals a.matrix times b.matrix up to a phase; a.conj.matrix is the adjoint up to phase; a.hsz and a.qasm3 multiply to a up to phase; a.measure(P) = C† P C exactly for each signed Pauli P; every matrix is unitary and the 24 are pairwise distinct up to phase.",
 "all 24 gates / 576 pairs","The algebraic identities are exact over C; tests compare floats with tolerance.",
 ["graphix/_db.py","graphix/clifford.py:Clifford"])
p("commute_domains is correct",
 "For every Clifford C, domains (s,t) and outcome assignment, with (s',t') = C.commute_domains((s,t)): X^s Z^t C = C X^s' Z^t' up to sign.",
 "all Cliffords, all domains, all outcome assignments","Domains are arbitrary sets.",
 ["graphix/clifford.py:Clifford.commute_domains"])
p("Measurement.clifford is correct for every angle",
 "For each plane, each real angle, each Clifford C and each outcome r: measuring m.clifford(C) projects on C† applied to the vector on which m projects, up to phase; the same holds for Pauli measurements, and to_bloch/to_pauli conversions denote the same projectors.",
 "all planes, all real angles, all 24 Cliffords, both outcomes","Angles range over a continuum.",
 ["graphix/measurements.py:BlochMeasurement.clifford","graphix/measurements.py:PauliMeasurement.clifford","graphix/measurements.py:Measurement.to_bloch"])
p("Adaptive measurement description implements X^s Z^t",
 "The measurement performed by the simulator for a command M with domains s,t equals the measurement of the undecorated M after applying X^s Z^t to the qubit, up to phase.",
 "all measurements, domains and recorded outcomes","Continuum of angles, all domains.",
 ["graphix/simulator.py:DefaultMeasureMethod.describe_measurement"])
p("Pauli algebra is exact",
 "Pauli products, unit multiplication, negation and commutation predicates agree with complex matrix multiplication; ComplexUnit is the multiplicative group {1,-1,i,-i}; Sign and Axis/Plane helpers agree with their matrix meaning.",
 "all Paulis and units","Exact equality over C.",
 ["graphix/pauli.py:Pauli","graphix/fundamentals.py:ComplexUnit","graphix/fundamentals.py:Sign","graphix/fundamentals.py:Plane"])
p("Domain clean-up passes preserve the computation",
 "remove_useless_domains and single_qubit_domains return patterns with the same branch map up to phase; after single_qubit_domains every domain contains at most one node.",
 "all runnable patterns, all branches","All patterns and branches.",
 ["graphix/optimization.py:remove_useless_domains","graphix/optimization.py:single_qubit_domains"])
p("Pauli pushing preserves the computation",
 "PauliPushingCut.from_standardizedpattern(...).to_standardizedpattern() gives a pattern in which the moved Pauli measurements come first with empty domains, and whose branches equal those of the original pattern up to phase after translating outcomes by shifted_domains.",
 "all standardized runnable patterns, all branches, all leave_nodes sets","All patterns and branches.",
 ["graphix/remove_pauli_measurements.py:PauliPushingCut"])
p("Topological generations are correct",
 "compute_topological_generations returns None iff the directed graph has a cycle; otherwise the layers partition the nodes, every edge goes from an earlier to a later layer, each node is in the earliest possible layer, and no layer is empty.",
 "all finite directed graphs","All graphs.",
 ["graphix/flow/_partial_order.py:compute_topological_generations"])
p("Causal-flow finder is sound and complete",
 "OpenGraph.to_causalflow_or_none returns a flow satisfying the causal-flow axioms (with its partial order) whenever it returns one, and returns None only if no causal flow exists.",
 "all open graphs with XY-plane measurements","All graphs; completeness is a non-existence claim.",
 ["graphix/flow/_find_cflow.py:find_cflow","graphix/flow/core.py:CausalFlow"])
p("GF(2) linear algebra is correct",
 "MatGF2.gauss_elimination keeps the row space and returns a (reduced) row echelon form; compute_rank is the rank; right_inverse returns a right inverse iff one exists; null_space returns a basis of the kernel; solve_f2_linear_system solves every solvable system in RREF; mat_mul is the matrix product.",
 "all binary matrices of any shape","All shapes and contents.",
 ["graphix/_linalg.py:MatGF2","graphix/_linalg.py:solve_f2_linear_system"])
p("gflow / Pauli-flow finder is sound and complete",
 "On every open graph, to_gflow_or_none / to_pauliflow_or_none raises no error, returns None exactly when the graph has no gflow / Pauli flow, and otherwise returns one: it satisfies the gflow / Pauli-flow axioms, passes check_well_formed, yields a deterministic pattern, and no other flow of the graph has fewer layers.",
 "all open graphs without self loops, and all set iteration orders","Soundness needs every graph; completeness quantifies over all candidate flows.",
 ["graphix/flow/_find_gpflow.py:compute_correction_matrix","graphix/flow/_find_gpflow.py:AlgebraicOpenGraph","graphix/opengraph.py:OpenGraph.to_pauliflow_or_none","graphix/opengraph.py:OpenGraph.to_gflow_or_none"])
p("Flow implies determinism",
 "If an open graph has a well-formed causal flow, gflow or Pauli flow, the pattern generated from it (flow -> XZ-corrections -> pattern) is runnable and all its outcome branches yield the same output state up to a global phase, with equal probability.",
 "all open graphs and flows, all branches, all input states, all angles","2^n branches and a continuum of angles.",
 ["graphix/flow/core.py:PauliFlow.to_xzcorrections","graphix/flow/core.py:XZCorrections.to_pattern","graphix/flow/core.py:CausalFlow","graphix/flow/core.py:GFlow"])
p("XZ-corrections are compatible with their partial order",
 "XZCorrections.from_measured_nodes_mapping succeeds only on acyclic corrections and the layers it computes order every corrected node after the node whose outcome it depends on; to_pattern then yields a runnable pattern with the given corrections.",
 "all open graphs and correction maps","All graphs and maps.",
 ["graphix/flow/core.py:XZCorrections.from_measured_nodes_mapping","graphix/flow/core.py:XZCorrections.to_pattern","graphix/flow/core.py:XZCorrections.generate_total_measurement_order"])
p("J/CZ decomposition of every gate is exact",
 "For every supported unitary instruction and every real angle, the sequence of J and CZ instructions produced by the transpiler multiplies to the matrix of the instruction up to a global phase.",
 "all gates, all real angles, any qubit positions","Continuum of angles; exact equality.",
 ["graphix/transpiler.py:instructions_to_jcz","graphix/transpiler.py:instruction_to_jcz","graphix/instruction.py"])
p("Circuit transpilation is correct",
 "For every circuit accepted by the API whose gates act on distinct qubits and which has no I gate (see C23), Circuit.transpile returns a runnable pattern whose inputs are the register and which implements the circuit: in every outcome branch, the amplitudes of the output nodes are those of the circuit's unmeasured qubits, up to one phase and the factor 1/sqrt 2 per non-classical measurement, independent of the input state, and the circuit's measurements have the outcomes of the classical output nodes. In the default mode this supposes that swap elimination does not lose an output (see C22); circuits without measurement always satisfy it.",
 "all circuits, all angles, all branches, all input states, all iteration orders of sets and graphs","Unbounded circuits, 2^n branches.",
 ["graphix/transpiler.py:Circuit.transpile","graphix/transpiler.py:Circuit.transpile_to_causalflow","graphix/transpiler.py:TranspiledFlow.to_pattern"])
p("Swap elimination is correct",
 "Replacing SWAP instructions by qubit relabelling yields a circuit which, followed by the returned output permutation, implements the original circuit.",
 "all circuits","Unbounded circuits.",
 ["graphix/transpiler.py:Circuit.transpile_swaps","graphix/transpiler.py:TranspileSwapsResult"])
p("No instruction is lost in transpilation",
 "Transpiling a circuit accounts for every instruction of the circuit, including those that follow an identity gate.",
 "all circuits","Holds for all instruction sequences.",
 ["graphix/transpiler.py:instructions_to_jcz"])
p("Space-optimal reordering preserves the computation",
 "minimize_space (default or user heuristics that propose legitimate orders; default: N commands prepare |+>) and parallelize_pattern (at least one output) return runnable patterns with the same inputs, outputs and branch map; minimize_space never increases max_space(), and minimize_space([]) is space-optimal for its measurement order with max_space() as StandardizedPattern.max_space() announces; a causal-flow order is space-optimal among all orders; parallelize_pattern uses the fewest measurement rounds. Outside these conditions (no output; non-|+> preparation) the calls drop measurements or raise.",
 "all runnable patterns, all heuristics, all iteration orders of the edge set, all branches","All patterns.",
 ["graphix/space_minimization.py:standardized_to_space_optimal_pattern","graphix/space_minimization.py:standardized_pattern_max_space","graphix/space_minimization.py:minimize_space","graphix/pattern.py:Pattern.parallelize_pattern","graphix/optimization.py:StandardizedPattern.partial_order_layers"])
p("Pattern composition is functional composition",
 "Pattern.compose with a valid mapping yields a runnable pattern whose branch map is the composition of the two branch maps along the mapped nodes, with node labels that do not collide.",
 "all pairs of runnable patterns and mappings","All patterns and mappings.",
 ["graphix/pattern.py:Pattern.compose","graphix/command.py"])
p("Affine expressions are substituted correctly",
 "For affine expressions over placeholders, arithmetic followed by substitution equals substitution followed by arithmetic on numbers.",
 "all affine expressions, all real values","Continuum of values; all expression shapes.",
 ["graphix/parameter.py:AffineExpression"])
p("Noise channels are trace preserving and as documented",
 "Each built-in channel constructor, for every probability in its range, yields Kraus operators with sum K†K = I and acts on density matrices as documented.",
 "all probabilities in [0,1]","Continuum of parameters.",
 ["graphix/channels.py"])
p("State-vector kernels implement their quantum operation",
 "The in-place kernels (tensor, add |+>, swap, CZ, single-qubit evolution, expectation, projection) compute on the 2^n array exactly the corresponding linear map, for every number of qubits and index.",
 "all n, all qubit indices, all arrays","All sizes.",
 ["graphix/sim/statevec.py:_tensor_jit","graphix/sim/statevec.py:_evolve_single_jit","graphix/sim/statevec.py:_entangle_jit","graphix/sim/statevec.py:_project_qubit_jit","graphix/sim/statevec.py:_swap_jit"])
p("NodeIndex is a bijection under every history",
 "After any sequence of extend (fresh nodes), remove, swap and clear operations, index(node) and __getitem__ are mutually inverse.",
 "all histories","Unbounded histories.",
 ["graphix/sim/base_backend.py:NodeIndex"])
p("Pauli strings and tableaux round trip",
 "PauliString.to_tableau followed by from_tableau is the identity and conversely; from_str and str round-trip.",
 "all Pauli strings of any length","All lengths.",
 ["graphix/circ_ext/extraction.py:PauliString"])
p("Clifford synthesis tableau updates are conjugations",
 "The tableau updates used by the Clifford synthesis pass for H, S, CNOT and SWAP are exactly conjugation of signed Pauli strings by that gate, and the synthesized instruction list realises the tableau.",
 "all n, all valid tableaux","All sizes.",
 ["graphix/circ_ext/compilation.py:cm_berg_pass"])
p("Pauli-exponential ladder is exact",
 "The circuit emitted by the ladder pass for a Pauli exponential equals exp(i alpha P) for all angles and Pauli strings, up to global phase.",
 "all Pauli strings of any length, all angles","All lengths, continuum of angles.",
 ["graphix/circ_ext/compilation.py:pexp_ladder_pass"])
p("Branch selectors",
 "Fixed and constant branch selectors return exactly the requested outcome; the random selector returns 0 with the probability computed from the state; the two outcome probabilities of any measurement on a normalised state sum to one.",
 "all states, measurements, mappings and random draws","Continuum.",
 ["graphix/branch_selector.py","graphix/sim/base_backend.py:DenseStateBackend.measure"])
p("Noise-model transpilation only inserts noise",
 "NoiseModel.transpile of the built-in models keeps the original commands in order and only inserts ApplyNoise commands on nodes that are alive; composed models insert the noise of every component.",
 "all command sequences","All sequences.",
 ["graphix/noise_models/noise_model.py","graphix/noise_models/depolarising.py","graphix/noise_models/amplitude_damping.py"])
p("Local-Clifford removal preserves the computation",
 "Clifford.to_opengraph() gives, for each of the 24 Cliffords, a local-Clifford-free open graph whose generated pattern applies the Clifford in every branch. On every runnable pattern that contains no C(n, I) command, remove_local_clifford_commands returns a runnable pattern without C commands and with the same inputs, in which untouched nodes keep their label and the other nodes are renamed injectively to fresh labels, the outputs keep their order, and every branch (whatever the outcomes of the added measurements) computes the corresponding branch of the original pattern, up to a global phase and the factor 1/sqrt 2 of each added measurement. (A C(n, I) command makes the current code raise PatternError: refuted.)",
 "all runnable patterns without C(n, I), all branches, all input states, all set iteration orders","All patterns, branches and states.",
 ["graphix/optimization.py:remove_local_clifford_commands","graphix/clifford.py:to_opengraph","graphix/_db.py:CLIFFORD_PAULI_DECOMPOSITION"])
p("Graph-state rewriting preserves the state",
 "GraphState.h/s/z apply the gate, equivalent_graph_e1/e2 keep the represented state, and measure_x/y/z project it, all up to a global scalar.",
 "all decorated graphs and nodes","All graphs.",
 ["graphix/graphsim.py:GraphState"])
p("Removing Pauli measurements preserves the pattern",
 "Pattern.remove_pauli_measurements on a runnable pattern whose nodes are prepared in |+> terminates without exception (unless standardization itself raises NotImplementedError) and returns a well-formed runnable pattern with the same inputs, on a subset of the nodes, whose outputs are those of the original under an injective renaming; every branch of the result is, up to a scalar, a branch of the original, and the scalar is not zero unless the isolated-node warning is issued; any Pauli measurement left on a non-input node is an X measurement, and if the original pattern is deterministic none is left and no branch vanishes.",
 "all patterns with |+> preparations, both values of standardize, all set-iteration orders, all branches, all input states","The rewriting loop runs local complementations and pivots on arbitrary graphs, in an order that depends on set iteration; tests sample a few circuits.",
 ["graphix/remove_pauli_measurements.py:remove_pauli_measurements","graphix/remove_pauli_measurements.py:_RemovePauliMeasurements","graphix/pattern.py:Pattern.remove_pauli_measurements"])
p("Simulator refines the branch semantics",
 "PatternSimulator.run with the state-vector backend and a fixed branch selector ends, for every runnable pattern whose branch outcomes all have conditional probability above the projection tolerance (1e-10), in the normalised state of that branch with qubits ordered as output_nodes.",
 "all runnable patterns and branches","All patterns.",
 ["graphix/simulator.py:PatternSimulator.run","graphix/sim/base_backend.py:DenseStateBackend"])
p("Open-graph composition and validation",
  "OpenGraph construction rejects exactly the ill-formed graphs; neighbors/odd_neighbors return the adjacent/oddly adjacent nodes and fail on unknown nodes; compose fails exactly on unknown or duplicated labels, incompatible measurements and the empty case, and otherwise returns a valid open graph whose relabelling, nodes, edges, ordered inputs and outputs, measurements and output Cliffords are the documented ones; when other is plugged on bare outputs of self without doubling an edge, the composed graph computes the two maps in sequence.",
  "all open graphs, mappings and measurement-closeness predicates",
  "All graphs and all merges (input/output/measured on either side, fresh labels).",
  ["graphix/opengraph.py:OpenGraph.compose", "graphix/opengraph.py:OpenGraph.__post_init__", "graphix/opengraph.py:OpenGraph.neighbors", "graphix/opengraph.py:OpenGraph.odd_neighbors"])
p("Angles of measurements",
  "normalize_angle brings float angles to [0,2) without changing the phase or the projectors; Clifford actions keep angles in [0,2); to_pauli_or_none recognises every half-integer angle and only angles within the tolerance of one, with the projectors of that half-integer angle; isclose is reflexive, symmetric, and equality without tolerance; negating a Pauli measurement exchanges its outcomes.",
  "all real angles, planes and tolerances","Continuum.",
  ["graphix/transpiler.py:normalize_angle","graphix/measurements.py:BlochMeasurement.to_pauli_or_none","graphix/measurements.py:BlochMeasurement.isclose","graphix/measurements.py:BlochMeasurement.clifford"])
p("State-vector construction validates its data",
 "Statevector(amplitudes) and Statevector(amplitudes, nqubit) accept only a normalised list of 2^n amplitudes, and then represent the state with these amplitudes; otherwise ValueError.",
 "all amplitude lists and qubit counts","All lengths.",
 ["graphix/sim/statevec.py:Statevector.__init__"])
p("Flow well-formedness checks decide the flow axioms",
 "PauliFlow.check_well_formed, GFlow.check_well_formed and CausalFlow.check_well_formed return normally exactly when the correction function and the layers satisfy the published definition of Pauli flow, gflow or causal flow on the open graph, and raise a FlowError otherwise; every causal flow is a gflow and every gflow a Pauli flow.",
 "all open graphs, correction functions, layer lists and set iteration orders","Flow axioms quantify over all pairs of nodes of all graphs.",
 ["graphix/flow/core.py:PauliFlow.check_well_formed","graphix/flow/core.py:GFlow.check_well_formed","graphix/flow/core.py:CausalFlow.check_well_formed","graphix/flow/core.py:_check_flow_general_properties"])
p("Flows found are focused, and is_focused decides focusedness",
 "PauliFlow.is_focused returns True exactly on the flows whose correction sets satisfy the published definition of a focused flow, and every flow returned by to_gflow / to_pauliflow is focused.",
 "all flows on all open graphs","All graphs and correction functions.",
 ["graphix/flow/core.py:PauliFlow.is_focused","graphix/opengraph.py:OpenGraph.to_pauliflow","graphix/opengraph.py:OpenGraph.to_gflow"])
p("Pattern synthesis from an open graph",
 "OpenGraph.to_pattern returns a pattern exactly when the open graph has a Pauli flow; the pattern is runnable, has the graph's inputs and outputs in order, is deterministic (all outcome branches give the same map up to a global phase) and implements the linear map of the open graph; otherwise OpenGraphError is raised.",
 "all open graphs without self loops, all measurement labels and set iteration orders","All graphs; existence of a flow quantifies over all correction functions and orders.",
 ["graphix/opengraph.py:OpenGraph.to_pattern"])
p("Pattern to XZ-corrections and back",
 "Pattern.to_xzcorrections().to_pattern(order) gives, for every accepted measurement order, a runnable pattern with the same inputs and outputs which computes the same map as the original pattern in every outcome branch; to_xzcorrections raises ValueError exactly when some node is not prepared in |+>.",
 "all patterns (also non-deterministic), branches, measurement orders and set iteration orders","All patterns and branches.",
 ["graphix/pattern.py:Pattern.to_xzcorrections","graphix/optimization.py:StandardizedPattern.to_xzcorrections","graphix/flow/core.py:XZCorrections.to_pattern"])
p("Flows extracted from corrections and patterns",
 "XZCorrections.to_pauliflow returns a well-formed Pauli flow whose corrections are the given ones if there is one over the given partial order, and raises FlowError otherwise (provided no X-correction targets an input node); to_causalflow and to_gflow return the unique causal flow / gflow with the given X-corrections or raise FlowError; flow -> corrections -> flow gives back the flow; a pattern from which to_pauliflow extracts a flow is deterministic and implements its open graph; and applying to_causalflow().to_xzcorrections().to_pattern() (or the gflow / Pauli flow analogue) to a deterministic pattern returns a pattern computing the same map.",
 "all XZ-corrections, flows and patterns, all set iteration orders and outcome branches","All graphs and all GF(2) systems; determinism quantifies over all branches and input states.",
 ["graphix/flow/core.py:XZCorrections.to_pauliflow","graphix/flow/core.py:XZCorrections.to_gflow","graphix/flow/core.py:XZCorrections.to_causalflow","graphix/flow/core.py:_solve_pauli_correction_set","graphix/flow/core.py:_reconstruct_pauli_correction_function","graphix/pattern.py:Pattern.to_causalflow","graphix/pattern.py:Pattern.to_gflow","graphix/pattern.py:Pattern.to_pauliflow"])
p("Rewriting of measurements and J gates in circuits",
  "Circuit.transpile_measurements_to_z_axis and transpile_j_to_rzh succeed on every circuit built with the API and return a circuit with the same width and the same active qubits, only Z measurements (resp. no J gate), and the same state on every measurement branch up to a global phase.",
  "all circuits, all outcomes, all input states",
  "All circuits, continuum of angles.",
  ["graphix/transpiler.py:Circuit.transpile_measurements_to_z_axis", "graphix/transpiler.py:Circuit.transpile_j_to_rzh"])
p("Density-matrix simulation, with and without noise",
  "PatternSimulator.run on the density-matrix backend, with or without noise model, returns the density matrix of trace one, in output order, obtained by applying the commands and the noise channels of the noisy sequence for the outcomes selected; each outcome is selected from its exact probability, which is in [0,1]; the run fails only if the selector fails or selects an outcome of probability zero. Without noise it agrees with the state-vector simulation (same outcomes, rho = |psi><psi|), and channels of probability zero change nothing.",
  "all runnable patterns, inputs (pure or mixed), noise models with probabilities in [0,1], selectors and random values",
  "Continuum of angles, states, probabilities; all patterns and outcome histories.",
  ["graphix/simulator.py:PatternSimulator.run","graphix/sim/density_matrix.py:DensityMatrix","graphix/sim/base_backend.py:DenseStateBackend","graphix/noise_models/noise_model.py:NoiseModel"])
p("Node relabelling is injective and only renames",
  "Pattern.node_mapping extends the given partial mapping to an injective one on exactly the nodes that are not preserved, with fresh labels >= start that avoid the forbidden labels and increase with the node, or raises ValueError iff the partial mapping has an unknown key or is not injective; Pattern.reindex with a renaming that is injective on the nodes returns a runnable pattern with the renamed inputs and outputs, whose branches are those of the original under the renaming of nodes and outcomes.",
  "all patterns, all partial mappings, start indices, avoided and preserved sets; all renamings injective on the nodes; all branches and states",
  "The claim is about arbitrary patterns and renamings; tests use a few small patterns.",
  ["graphix/pattern.py:Pattern.node_mapping", "graphix/pattern.py:Pattern.reindex", "graphix/command.py"])
p("Circuit extraction from a flow computes the map of the open graph",
  "OpenGraph.to_circuit (and PauliFlow.extract_circuit().to_circuit() on any well-formed focused flow) with the default compilation passes succeeds on every open graph that has a Pauli flow, no output Cliffords, as many inputs as outputs and no input measured along a negative Pauli axis; the circuit has one qubit per output, contains no measurement, and computes, up to one non-zero scalar, the linear map of the open graph and of every branch of the patterns obtained from it, qubit q entering on the q-th input and leaving on the q-th output. OpenGraphError is raised exactly when there is no Pauli flow; output Cliffords and isometries are NotImplementedError, unfocused flows ValueError.",
  "all open graphs without self loops, focused Pauli flows, angles, set iteration orders, outcome branches and input states",
  "The extraction combines sign rules over arbitrary graphs and correction sets, a flow search on an extended graph and two synthesis passes; tests compare a few small circuits numerically.",
  ["graphix/circ_ext/extraction.py:extraction_ps_from_corrected_node","graphix/circ_ext/extraction.py:PauliExponentialDAG.from_focused_flow","graphix/circ_ext/extraction.py:CliffordMap.from_focused_flow","graphix/circ_ext/extraction.py:extend_input","graphix/flow/core.py:PauliFlow.extract_circuit","graphix/opengraph.py:OpenGraph.to_circuit"])
p("Exporting a pattern to OpenQASM 3 preserves its meaning",
  "pattern_to_qasm3 of a runnable pattern with inputs and prepared nodes in |0> or |+> gives a valid program (every qubit and bit declared once and before use, no bit read before it is measured) that, on every measurement branch, records the outcomes of the pattern and leaves the unmeasured qubits, up to a global phase, in the state computed by the pattern; the printed angles are within a relative error of 1e-9 of the angles of the pattern, and exact for fractions of pi with denominators up to 1000. It raises ValueError exactly for unsupported commands and states, and KeyError for a missing input state.",
  "all patterns, input states, angles, set iteration orders and outcome branches",
  "The program text depends on arbitrary patterns and real angles; tests import a few examples in another tool.",
  ["graphix/qasm3_exporter.py:pattern_to_qasm3","graphix/qasm3_exporter.py:command_to_qasm3_lines","graphix/qasm3_exporter.py:domain_to_qasm3_lines","graphix/qasm3_exporter.py:state_to_qasm3_lines","graphix/pretty_print.py:angle_to_str"])
p("Exporting a circuit to OpenQASM 3 preserves its meaning",
  "circuit_to_qasm3 succeeds on every circuit built with the API and gives a valid program that, on every branch, records the outcomes in the bits of the measured qubits and computes the state of the circuit up to a global phase (angles as in C51); with transpile=False it raises ValueError exactly when the circuit has a J gate or a measurement on X or Y.",
  "all circuits, angles, outcomes and input states",
  "All circuits, continuum of angles.",
  ["graphix/qasm3_exporter.py:circuit_to_qasm3","graphix/qasm3_exporter.py:instruction_to_qasm3","graphix/transpiler.py:Circuit.transpile_j_to_rzh","graphix/transpiler.py:Circuit.transpile_measurements_to_z_axis"])
p("Tensor-network simulation returns the state of the selected branch",
  "PatternSimulator(pattern, backend='tensornetwork') with graph_prep parallel, sequential or auto, on |+> inputs and nodes: the outcomes are those the branch selector returns when asked in program order (with probability 1/2), basis_coefficient gives the amplitudes of that branch up to a global phase and the factor sqrt 2 per measurement, and to_statevector gives the normalised state of the branch, equal up to a global phase to what the state-vector backend returns for the same outcomes, or nan exactly when the branch has probability zero. Parallel preparation of a non-standard pattern raises ValueError, and states other than |+> raise NotImplementedError.",
  "all patterns, outcomes, branch selectors, preparation modes, edge orders and decompositions of CZ",
  "The claim ranges over all networks and over the algebra of arbitrary contractions; tests compare a few circuits numerically.",
  ["graphix/sim/tensornet.py:TensorNetworkBackend","graphix/sim/tensornet.py:MBQCTensorNet.prepare_graph_state","graphix/sim/tensornet.py:MBQCTensorNet.measure_single","graphix/sim/tensornet.py:MBQCTensorNet.evolve_single","graphix/sim/tensornet.py:MBQCTensorNet.basis_coefficient","graphix/sim/tensornet.py:MBQCTensorNet.to_statevector"])
p("The fusion network of a graph partitions its edges into stars and lines",
  "graph_to_fusion_network on a graph without self-loops: whenever it returns, each edge of the graph is in exactly one cluster and exactly once, the nodes of the clusters are the nodes of the graph, GHZ clusters are stars within max_ghz (or of at most three nodes), LINEAR clusters are rows of at least four nodes within max_lin; it returns, and the rows are simple paths, when max_ghz exceeds every degree (or is infinite) and max_lin is at least two. fusion_nodes lists the common nodes of two different clusters.",
  "all simple graphs, neighbor orders and size limits",
  "All graphs; termination depends on the history of edge removals, tests decompose a few graphs without limits.",
  ["graphix/extraction.py:graph_to_fusion_network","graphix/extraction.py:create_resource_graph","graphix/extraction.py:fusion_nodes","graphix/extraction.py:ResourceGraph.__eq__"])
p("Simulating a circuit gives the state of the recorded branch, and its pattern gives the same",
  "Circuit.simulate on the state-vector backend, for every circuit built with the API (RZZ on two different qubits): it returns the unmeasured qubits in increasing order in the normalised state of the branch given by the recorded outcomes, one per measurement in program order, chosen by the branch selector from the exact conditional probability of outcome 0; it fails only when the selector fails or selects an outcome of conditional probability at most 2e-10. Without measurement it never fails and returns the product of the gates applied to the input. A run of the transpiled pattern from the same input that has the same outcomes for the measurements of the circuit returns the same state vector up to a global phase.",
  "all circuits, inputs, branch selectors, random streams, schedules of the parallel kernels and outcome branches",
  "The claim ranges over all circuits, inputs and branches; tests compare random circuits numerically.",
  ["graphix/transpiler.py:Circuit.simulate","graphix/transpiler.py:Circuit.transpile","graphix/sim/statevec.py:Statevec.evolve","graphix/sim/statevec.py:Statevec.swap","graphix/sim/base_backend.py:DenseStateBackend"])
p("Inspecting and comparing states",
"Statevec.fidelity of two normalised states of the same size is symmetric, lies in [0, 1] and is 1 exactly when they are equal up to a global phase (different sizes: ValueError); isclose says so within the tolerances, and close states are at a squared distance of at most 2 max(rtol, atol) up to a phase; unitary gates change neither. expectation_value is <psi|op|psi>, real for a Hermitian operator, and agrees with expectation_single. to_dict / to_prob_dict have exactly one entry per basis vector whose amplitude exceeds atol, under the bitstring of the chosen encoding (MSB: qubit 0 first), and the probabilities sum to 1 up to 2^n atol^2. DensityMatrix.ptrace is the partial trace with the order of the other qubits kept (trace and positivity preserved, a product leaves its other factor), fidelity is <psi|rho|psi> in [0, 1], swap and cnot act as the gates and reject equal qubits, expectation_single does not change a matrix of trace one.",
"all states, numbers of qubits, operators, target lists, encodings and tolerances (exact arithmetic)",
"the identities quantify over all complex amplitudes and register sizes, and over the placement of any list of targets; tests use a few random states with tolerances",
["graphix/sim/statevec.py:Statevec.fidelity","graphix/sim/statevec.py:Statevec.isclose","graphix/sim/statevec.py:Statevec.expectation_value","graphix/sim/statevec.py:Statevec.to_dict","graphix/sim/statevec.py:Statevec.to_prob_dict","graphix/sim/density_matrix.py:DensityMatrix.ptrace","graphix/sim/density_matrix.py:DensityMatrix.fidelity","graphix/sim/density_matrix.py:DensityMatrix.swap","graphix/sim/density_matrix.py:DensityMatrix.expectation_single"])
p("Random objects are valid objects",
"For every sequence of draws, on at least two qubits (three with use_ccx): rand_circuit returns a circuit of the given width with depth (4 + n + 2 per enabled family) gates, only of the enabled kinds and on distinct qubits of the register, which the constructor accepts, which transpiles to a pattern implementing it and which simulates; with fewer qubits it raises ValueError. rand_gate has the documented layers for a list of pairs with angles in [0, 1). rand_herm is Hermitian; rand_dm is positive, of trace one and of rank at most rank (a pure state for rank 1); rand_state_vector is normalised and accepted by Statevec; rand_channel_kraus and rand_pauli_channel_kraus return complete Kraus families with rank operators (the latter normalised Pauli probabilities), and raise ValueError on a rank out of range.",
"all sequences of draws, sizes, depths, ranks and options",
"the claims must hold for every output of the generator; tests look at a few seeds",
["graphix/random_objects.py:rand_circuit","graphix/random_objects.py:rand_gate","graphix/random_objects.py:rand_herm","graphix/random_objects.py:rand_dm","graphix/random_objects.py:rand_state_vector","graphix/random_objects.py:rand_channel_kraus","graphix/random_objects.py:rand_pauli_channel_kraus","graphix/ops.py:Ops.build_tensor_pauli_ops"])
p("Printed numbers and states can be read back",
"complex_to_str returns a string for every number and output format; read as a sum of products it denotes a number within 2 sqrt(atol) + pi atol |z| (plus the relative rounding of the decimals when one is printed), exactly the number for atol = 0 when no decimal is shown; what is recognised is a reduced fraction times the root of a square-free integer, and every fraction or root of a fraction within the denominator limit is recognised. statevec_to_str of a normalised state whose amplitudes lie on the axes, or share a modulus with fractional square and have angles that are fractions of pi, reads as that state up to the error, with nothing else printed. False in general (proved): sums of decimals and phases such as (3+4i)/5 are put before their ket without parentheses, and a number of modulus sqrt(atol) > atol prints as 0",
"all complex numbers, states, encodings, output formats, denominator limits up to 1000, tolerances and roundings",
"the claims quantify over all real numbers and over all combinations of signs, radicals, fractions and terms; tests print a few values",
["graphix/pretty_print.py:complex_to_str","graphix/pretty_print.py:_recognize_sqrt","graphix/pretty_print.py:_squarefree_decomposition","graphix/pretty_print.py:_exponential_to_str","graphix/pretty_print.py:_cartesian_to_str","graphix/pretty_print.py:_factor_uniform_magnitude","graphix/pretty_print.py:statevec_to_str"])
p("Printed patterns and flows can be read back",
"Two commands have the same text, in any of the three formats, exactly when they show the same kind, nodes, domains, plane and angle text (or Pauli measurement) and gate label; the text of a pattern without limit determines the list of selected commands in this sense, first commands left or right as asked; with a limit k >= 1, everything is printed when it fits, otherwise the first k-1 commands of the display order and the exact number of the elided ones. Angles with the same text are, with relative accuracy 1e-9, the same fraction of pi with denominator at most 1000 or have the same float text; an angle p/q in lowest terms with q <= 1000 is printed as that fraction. The text of a flow determines its correction function and layers, that of an XZ-corrections object both its mappings and its layers, on one line or several, with the layers measured first on the left.",
"all commands, patterns, filters, limits, formats, angles, correction functions, layers and set iteration orders",
"unambiguity compares all pairs of patterns; tests print a few",
["graphix/pretty_print.py:command_to_str","graphix/pretty_print.py:pattern_to_str","graphix/pretty_print.py:angle_to_str","graphix/pretty_print.py:flow_to_str","graphix/pretty_print.py:xzcorr_to_str","graphix/pattern.py:Pattern.to_ascii","graphix/flow/core.py:PauliFlow.to_ascii"])
p("Drawings show the flow",
"Drawing a causal flow places every node, no two at the same point; each node is on the same row as the node that corrects it, strictly to its left, in the column above the number of its layer. The arrows of a flow are its corrections, each drawn once; those of XZ-corrections are the corrections, each drawn once and in the colour that says X, Z or both. With a node distance of at least 0.2 nothing raises, each graph edge is a path between its two nodes and each arrow is a straight line or a curve from its first node to a point at distance 0.2 of the second one (for any layout that keeps the two nodes 0.2 apart); curves start at the first point of their path, end at the last and stay in its convex hull. A segment is bent around a node exactly when the foot of the perpendicular from the node lies on it nearer than the buffer. False with smaller node distances (proved): drawing a flow raises IndexError.",
"all causal flows, XZ-corrections, set iteration orders, layouts, node distances and paths (exact arithmetic)",
"distinctness of the positions needs injectivity of every causal flow and the claims on paths range over all placements; tests compare a few pictures",
["graphix/visualization.py:_compute_positions","graphix/visualization.py:_format_corrections_flow","graphix/visualization.py:_format_corrections_xz","graphix/visualization.py:_compute_arrow_paths","graphix/visualization.py:_find_bezier_path","graphix/visualization.py:_edge_intersects_node","graphix/visualization.py:_bezier_curve","graphix/visualization.py:GraphVisualizer._draw_layers","graphix/visualization.py:GraphVisualizer.from_flow"])
p("Rewriting a circuit reaches every instruction and nothing else",
"Visiting a circuit (Circuit.visit, apply_angle, replace_parameter, replace_parameters) rewrites every qubit, angle and axis of every instruction with the visitor, and only those; visiting twice is visiting with the composition. In any program, a visit with copy=True leaves all existing circuits unchanged and its result is independent of them, even if the visitor raises; a visit in place affects no other circuit, and if the visitor raises the instructions before the faulty one stay rewritten. An injective renaming of the qubits renames the qubits of the simulated state on every branch, and within the register yields a circuit the gate methods accept; shifting angles by whole turns only changes the global phase; substituting parameters gives the circuit with these values, for every kind of gate, and leaves no parameter when all are given numbers; is_parameterized tells whether a parameter occurs. Not so: a visitor that merges two qubits or leaves the register is accepted; a copy of a circuit with a measurement accepts gates on the measured qubit; is_parameterized overlooks J gates.",
"all circuits, all visitors (possibly raising), all programs creating, extending and visiting circuits, all renamings, angle functions, parameter assignments, outcomes and input states",
"aliasing between circuits and exceptions in the middle of a rewriting depend on the whole history of operations; the semantic claims range over all circuits and states",
["graphix/transpiler.py:Circuit.visit","graphix/transpiler.py:Circuit.apply_angle","graphix/transpiler.py:Circuit.is_parameterized","graphix/transpiler.py:Circuit.replace_parameter","graphix/transpiler.py:Circuit.replace_parameters","graphix/instruction.py:InstructionVisitor","graphix/instruction.py:BaseInstruction.visit"])
p("Planes, axes, states and measurements agree on the Bloch sphere",
"The plane built from two different axes, in any order, is the one carried by them, and equal axes are an error; the polar point of a plane has the cosine and sine of the angle along its two axes and zero along the orthogonal one. A planar state is normalised, its density matrix is half of I + xX + yY + zZ and its mean Pauli values are the coordinates of its point; measuring a planar state gives outcome r with probability (1 + (-1)^r cos) / 2 for the angle between the two points, so measuring it in its plane at its angle gives 0 and leaves it. The eigenstates of a signed or complex Pauli are normalised and orthogonal and the eigenvalue is its unit, negated for binary 1; other values of binary are refused; outcome r of a Pauli measurement projects on the corresponding eigenstate of its axis. Iterating over Pauli operators or Pauli measurements lists each exactly once. The plane of a measurement after a Clifford gate is carried by the images of its axes, which are the axes of the conjugated matrices, and gates applied one after the other act like their product.",
"all planes, axes, signs, real angles, units, outcomes and Clifford gates",
"the angles range over the reals and the claims equate objects defined in four different modules; tests compare a few floating-point values",
["graphix/fundamentals.py:Plane.from_axes","graphix/fundamentals.py:Plane.polar","graphix/fundamentals.py:Plane.clifford","graphix/fundamentals.py:Axis.clifford","graphix/states.py:PlanarState","graphix/states.py:State.to_densitymatrix_numpy","graphix/pauli.py:Pauli.eigenstate","graphix/pauli.py:Pauli.iterate","graphix/measurements.py:BlochMeasurement","graphix/measurements.py:PauliMeasurement"])
p("Rewriting the measurements of a pattern, and counting and connecting its nodes",
"Pattern.apply replaces every measurement by what the function returns and nothing else, and leaves the pattern as it was if the function raises; map returns the same commands, inputs and outputs as a copy, and cannot fail on runnable patterns. Runnability never changes; if the function keeps the measured operators the pattern implements the same map on every branch, in particular blochify (after which all measurements are Bloch measurements and downcast_bloch succeeds) and infer_pauli_measurements with zero tolerances; with tolerances the result is the pattern with the recognised angles rounded. max_space is the largest number of nodes present at any moment. The open graph has exactly the edges with an odd number of E commands, and isolated_nodes the nodes with none. connected_nodes lists the neighbours that are not excluded and leaves an equivalent standard pattern. Not so (proved): space_list counts the nodes present at each N and M minus the number of inputs, so measuring an input gives -1; connected_nodes raises IndexError on every pattern without measurements, corrections and Clifford commands that has an edge.",
"all patterns, functions on measurements (possibly raising), tolerances, nodes, excluded sets and edge enumerations",
"equality of branches, maxima over all prefixes and parities over all command sequences; tests look at a few patterns",
["graphix/pattern.py:Pattern.apply","graphix/pattern.py:Pattern.map","graphix/pattern.py:Pattern.blochify","graphix/pattern.py:Pattern.infer_pauli_measurements","graphix/pattern.py:Pattern.max_space","graphix/pattern.py:Pattern.space_list","graphix/pattern.py:Pattern.isolated_nodes","graphix/pattern.py:Pattern.connected_nodes","graphix/pattern.py:Pattern.correction_commands","graphix/command.py:M.map"])
p("Comparing open graphs and mapping their measurements",
"For every pair of valid open graphs: is_equal_structurally is True exactly when they have the same nodes, the same adjacency, the same ordered inputs and outputs and the same output Cliffords, whatever the order in which nodes, edges and dictionary items are stored, and it is an equivalence; isclose always returns (never a KeyError), and returns True exactly when the structures are the same and the measurements of every node are close; it is reflexive and symmetric, and with zero tolerances it is equality of structure and measurements, in which case the two open graphs define the same linear map and are implemented by the same patterns. map returns a valid open graph with the same structure whose measurements are the images of the old ones, or raises what the function raised first; a function that keeps the projected states keeps the linear map. to_bloch always succeeds and keeps the linear map; downcast_bloch raises TypeError exactly when a Pauli measurement is present and otherwise returns an equal open graph; infer_pauli_measurements keeps the linear map up to the rounding of angles within tolerance, and exactly with zero tolerances.",
"all pairs (triples, for transitivity) of valid open graphs, all tolerances, all measurement functions (that may raise), all patterns for the preservation of the computation",
"tests compare a few graphs; equality of linear maps and independence of storage order concern all graphs and all states",
["graphix/opengraph.py:OpenGraph.is_equal_structurally","graphix/opengraph.py:OpenGraph.isclose","graphix/opengraph.py:OpenGraph.map","graphix/opengraph.py:OpenGraph.to_bloch","graphix/opengraph.py:OpenGraph.downcast_bloch","graphix/opengraph.py:OpenGraph.infer_pauli_measurements"])
p("Arrays accepted as operators and lists accepted as channels",
"For every array: is_qubitop is True exactly when the array is a square matrix whose dimension is a power of two (1 included, 0 excluded), so KrausData raises ValueError exactly on the others and a KrausData on 2^k dimensions reports k qubits; the integer logarithm used for this is, for every positive n, the least k with n <= 2^k, and raises ValueError on the others (it is the floor its documentation promises exactly on powers of two). For every list of Kraus data, KrausChannel accepts exactly the non-empty lists of at most 4^k operators on the same number k of qubits whose normalisation is the identity entry by entry within numpy's default tolerances, raises ValueError on all others, keeps the data and reports k qubits; exact normalisation is always accepted. is_hermitian accepts every Hermitian matrix and what it accepts is Hermitian entry by entry within tolerance; is_psd raises ValueError exactly on a square array with a negative tolerance and otherwise says whether the matrix is square, Hermitian and without eigenvalue below the tolerance.",
"all array shapes and entries, all positive and non-positive integers, all lists of Kraus data of every length and dimension, all tolerances",
"tests try a few dimensions; the bit trick and the logarithm must be right for every integer and the constructor for every list",
["graphix/linalg_validations.py:is_square","graphix/linalg_validations.py:is_qubitop","graphix/linalg_validations.py:is_hermitian","graphix/linalg_validations.py:is_psd","graphix/linalg_validations.py:is_unit_trace","graphix/channels.py:_ilog2","graphix/channels.py:KrausData","graphix/channels.py:KrausChannel"])
p("The state-vector simulator stays inside its buffer, and its capacity is not observable",
"On a buffer of 2^c entries holding n <= c qubits, and for valid qubit indices, none of the compiled kernels (tensor, add a default node, swap, entangle, apply and expectation of a one-qubit operator, projection with compaction) reads or writes outside the buffer, in any order of their parallel iterations. A constructor with a capacity below the number of qubits raises ValueError; otherwise neither the capacity, nor the uninitialised part of the buffer, nor the reallocations influence the state: along every history of method calls the first 2^n amplitudes (or the RuntimeError of a zero projection) are those of the same history on unbounded arrays. The capacity is at each point the maximum of the initial one and of what the calls required, so with a preallocation for the peak number of qubits nothing is ever reallocated. Refuted for invalid indices: swap checks nothing, and with a negative index it accesses the buffer outside (entangle, by contrast, is safe for every index).",
"all buffers, capacities, contents of uninitialised memory, qubit indices, operators, schedules of parallel iterations, and histories of method calls of any length",
"an access outside the buffer in compiled code is silent, and the junk left by np.empty and the order of parallel iterations are not under the control of a test",
["graphix/sim/statevec.py:Statevector.__init__","graphix/sim/statevec.py:Statevector.ensure_capacity","graphix/sim/statevec.py:Statevector.add_nodes","graphix/sim/statevec.py:Statevector.tensor","graphix/sim/statevec.py:Statevector.entangle","graphix/sim/statevec.py:Statevector.evolve_single","graphix/sim/statevec.py:Statevector.swap","graphix/sim/statevec.py:Statevector.project_qubit","graphix/sim/statevec.py:_tensor_jit","graphix/sim/statevec.py:_add_default_node_jit","graphix/sim/statevec.py:_swap_jit","graphix/sim/statevec.py:_entangle_jit","graphix/sim/statevec.py:_evolve_single_jit","graphix/sim/statevec.py:_expectation_single_jit","graphix/sim/statevec.py:_scale_psi","graphix/sim/statevec.py:_project_qubit_jit"])
with open("/verif/properties.jsonl","w") as f:
    for x in P: f.write(json.dumps(x)+"\n")
print(len(P))
