{
"C01": [
"proved",
"Branch map equality up to a constant phase for every outcome assignment and every edge-set iteration order; totality of standardize."
],
"C02": [
"proved",
""
],
"C03": [
"proved",
""
],
"C04": [
"proved",
""
],
"C05": [
"proved",
"Histories of add/extend/clear/replace/reorder calls."
],
"C06": [
"proved",
"Both methods; the direct dictionary maps shifted outcomes to unshifted ones, the mc dictionary the other way; the documented 'or vice versa' is refuted for the direct method. Aliasing of mutable domain sets is not modelled."
],
"C07": [
"proved",
"Tables transcribed by tools/gen_clifford.py; matrices in Z[i]/sqrt(norm) form interpreted in C."
],
"C08": [
"proved",
""
],
"C09": [
"proved",
""
],
"C10": [
"proved",
""
],
"C11": [
"proved",
""
],
"C12": [
"proved",
"Every iteration order of the domain sets."
],
"C13": [
"proved",
"Cut level and Pattern.perform_pauli_pushing in both modes; bijection of branches; errors characterised."
],
"C14": [
"proved",
"Every finite directed graph and every iteration order of sets; fuel adequacy shown; the layers are unique."
],
"C15": [
"proved",
"All iteration orders; soundness, completeness, no error, and optimality (maximal delay) of the flow found."
],
"C16": [
"proved",
"all routines of _linalg.py: elimination (REF/RREF, row space), rank, right_inverse (iff), null_space (basis), mat_mul, solve; entries modelled as bits, numba loops as row operations"
],
"C17": [
"proved",
"Also proved: the docstrings' claim that the flows found are maximally delayed is false (C17_maximally_delayed_refuted), and with self loops the flow found may fail check_well_formed (C17_self_loop_refuted)."
],
"C18": [
"proved",
"Every flow accepted by the checker yields a runnable pattern, deterministic in the strong sense (all branch maps equal up to phase), which implements the linear map of the open graph (OGMap.implements)."
],
"C19": [
"proved",
"from_measured_nodes_mapping and check_well_formed decide their documented conditions; patterns contain exactly the given corrections. Two refuted expectations: check_well_formed accepts corrections on unknown nodes; explicit empty order raises IndexError."
],
"C20": [
"proved",
"All sixteen instruction kinds, all angles, whole circuits without I; nesting depth shown adequate."
],
"C21": [
"proved",
"End to end: J/CZ decomposition, graph and causal-flow construction, corrections, standardization, space-optimal pattern, classical outputs, SWAP elimination. Exact branch maps. Refuted outside the hypotheses: RZZ on one qubit (accepted, then ValueError) and the I gate."
],
"C22": [
"partial",
"transpile_swaps proved for all circuits; swap_output_nodes proved exactly when it does not raise KeyError, refuted otherwise (SWAP(0,1); M(0)); order of classical outputs refuted."
],
"C23": [
"partial",
"False of the code: instructions after an I gate are dropped (C23_refuted, C23_dropped). Proved for circuits without I."
],
"C24": [
"proved",
"minimize_space (default and user heuristics), to_space_optimal_pattern, max_space and parallelize_pattern are modelled; refuted for patterns without outputs (parallelize_pattern) and for N commands other than |+> (minimize_space default)."
],
"C25": [
"proved",
"For good patterns (distinct inputs, runnable, no S command in other) and mappings satisfying the documented conditions: success, complete injective relabelling, labels collide only on fed nodes, inputs/outputs (including preserve_mapping), runnability and branch semantics; other mappings are rejected. C25_empty_self_refuted: an empty self with an empty mapping raises ValueError. Warnings are not modelled."
],
"C26": [
"partial",
"The property as stated is false of the code ((x+1)-x evaluates to 0): C26_refuted. Proved for all expressions without such a cancellation, with an exact characterisation of the failing additions; substitution fully proved."
],
"C27": [
"partial",
"Every constructor except pauli_channel: complete, trace preserving, positive, documented action. pauli_channel: refuted (its Kraus operators are not normalised; the constructor raises ValueError unless px+py+pz=3/4, and even then acts differently)."
],
"C28": [
"proved",
"kernels of sim/statevec.py on arrays of unbounded capacity with exact complex arithmetic; parallel loops run in any order; int32 overflow of indices beyond 2^31 amplitudes not modelled"
],
"C29": [
"proved",
"All histories; negative Python indices not modelled."
],
"C30": [
"proved",
"Round trips string <-> tableau <-> text in both directions, with the operator meaning of the tableau; an out-of-range key is refuted (not rejected by the constructor)."
],
"C31": [
"proved",
"Row updates are conjugations; synthesis realises every valid Clifford map with the announced gate set; n = 0 refuted (ValueError)."
],
"C32": [
"proved",
"Ladder = exp(i alpha P) up to phase, whole DAG pass and er_to_circuit; the class docstring's exp(i alpha/2 P) is refuted. Parameterised angles not modelled."
],
"C33": [
"proved",
"selectors, outcome probabilities; edge case draw=0.0 with p0=0 refuted"
],
"C34": [
"proved",
"Noiseless, depolarising, amplitude-damping and nested composed models; transpile, input_nodes, confuse_result and the sequence run by the simulator."
],
"C35": [
"proved",
"all patterns without C(n, I); C35_identity_refuted: a C(n, I) command makes the pass raise PatternError. S commands excluded"
],
"C36": [
"partial",
"GraphState.h, z, equivalent_graph_e1/e2, equivalent_fill_node, measure_x/y/z, extract_vops proved for all simple decorated graphs. s and apply_vops proved except where the code is wrong (hollow+loop+positive node with a neighbour; Clifford.I raises), with refuting witnesses."
],
"C37": [
"proved",
"Whole function, both output forms, all iteration orders; |+> preparations are a hypothesis (C37_preparations_refuted shows it is needed), isolated nodes measured along -X are a documented-warning case (C37_isolated_refuted)."
],
"C38": [
"proved",
"state-vector backend, no noise model, exact arithmetic; any selector, any kernel schedule; tolerance explicit"
],
"C39": [
"proved",
"construction, neighbourhoods, compose specification and sequential semantics; refuted: empty self, doubled edges, pending Cliffords"
],
"C40": [
"proved",
"exact reals (no float rounding); refuted for Python integers, which normalize_angle leaves alone"
],
"C41": [
"partial",
"without nqubit: proved; with nqubit: refuted (length not checked)"
],
"C42": [
"proved",
"Iff with the published axioms; the P3 docstring in the code says 'either or' where the code (correctly) tests 'both or neither'. GFlow/CausalFlow: planar measurements only (type-level precondition)."
],
"C43": [
"proved",
""
],
"C44": [
"proved",
"to_pattern decides existence of a Pauli flow and yields a runnable deterministic pattern implementing the graph"
],
"C45": [
"proved",
"round trip pattern -> XZ-corrections -> pattern keeps every branch map; complete list of errors"
],
"C46": [
"proved",
"Sound and complete extraction, round trips and determinism are proved under the hypothesis that no X-correction targets an input. C46_input_x_refuted: with such a correction to_pauliflow returns an ill-formed flow for a non-deterministic pattern. C46_missing_z_refuted: to_causalflow/to_gflow ignore Z-corrections."
],
"C47": [
"proved",
"all instruction kinds"
],
"C48": [
"proved",
"Exact arithmetic; is_psd (LAPACK eigenvalues) is a parameter of the model; mixed inputs are finite mixtures of pure states. C48_self_edge_refuted: runnable patterns with E(n,n) raise ValueError on the density-matrix backend but run on the state-vector backend."
],
"C49": [
"proved",
"node_mapping with all its options; reindex for renamings injective on the nodes; patterns without S commands for reindex."
],
"C50": [
"proved",
"Restricted to inputs not measured along a negative Pauli axis; without that restriction the claim is false of the code (C50_minus_input_refuted: wrong sign of the image of Z). Default compilation passes only."
],
"C51": [
"proved",
"Program text abstracted to a syntax tree; OpenQASM semantics of the emitted fragment is part of the specification."
],
"C52": [
"partial",
"Proved for every circuit without RZZ; RZZ is exported as crz, a different gate (C52_rzz_refuted)."
],
"C53": [
"proved",
"C53_probability_refuted: outcomes are drawn with probability 1/2 even when they are impossible, the state is then nan; an isolated node measured after a command other than N and M may raise"
],
"C54": [
"proved",
"C54_ghz_limit_refuted, C54_lin_limit_refuted: with a GHZ limit at or below a degree, or a linear limit of one, the function may never return; C54_ghz_size_refuted: three-node GHZ clusters ignore max_ghz; C54_linear_refuted: under a GHZ limit a LINEAR cluster may revisit a node; C54_loop_refuted: a self-loop raises KeyError"
],
"C55": [
"proved",
"Circuit.simulate on the state-vector backend refines the branch semantics; agreement with the transpiled pattern up to a global phase. RZZ on one qubit twice (accepted by the API) is excluded."
],
"C56": [
"proved",
"Refuted alongside: to_dict of a state without qubits uses the key '0'; DensityMatrix.expectation_single rescales self (in-place division after a shallow copy) when the trace is not one; Statevec.evolve accepts repeated targets and is then not norm-preserving."
],
"C57": [
"proved",
"Refuted alongside: use_rzz still puts CNOTs in the first entangling layer, depth 0 gives depth 1, an iterator of pairs is used by the first layer only and an iterator of parameters by RX only. A zero draw makes rand_pauli_channel_kraus fail (IndexError). rand_unit (dim > 1), sqrtm and inv of scipy are taken by their specification; the distributions are not modelled."
],
"C58": [
"proved",
"rtol = 0 (the default) and maxden <= 1000. The parenthesis bugs and the square-root tolerance are proved as _refuted theorems; the readability theorems state the classes of amplitudes for which the printed state is right."
],
"C59": [
"proved",
"Symbolic (parametric) angles and ApplyNoise commands are not modelled. C59_limit_refuted: the documented 'only first limit commands are printed' is false (limit-1 are, the last ones when printing right to left, and limit=0 prints commands and miscounts). C59_label_refuted: eight different Clifford gates share the label I^{1/3}, so the text does not determine the gate."
],
"C60": [
"proved",
"Causal-flow layout, arrows and colours of flows and XZ-corrections, paths and curves; the networkx layouts of other objects are arbitrary positions; float rounding not modelled"
],
"C61": [
"proved",
"The claims the code does not meet (renamings outside the register, active qubits of copies, J gates in is_parameterized) are stated as C61_rename_refuted, C61_active_refuted and C61_is_parameterized_refuted."
],
"C62": [
"proved",
"planes, axes, planar states, Pauli eigenstates, measurements and Clifford gates compared on the Bloch sphere; exact reals"
],
"C63": [
"proved",
"false of the code: space_list ignores the inputs, connected_nodes raises IndexError on graph states (witnesses proved)"
],
"C64": [
"proved",
"complete for float angles; is_equal_structurally, isclose, map, to_bloch, downcast_bloch, infer_pauli_measurements"
],
"C65": [
"proved",
"complete; eigenvalues of is_psd are a parameter; the docstring of _ilog2 (floor) is false off powers of two (C65_ilog2_floor_refuted)"
],
"C66": [
"proved",
"complete"
]
}