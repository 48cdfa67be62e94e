{
 "claims": [
  {
   "property": "C01",
   "status": "proved",
   "theorems": [
    "C01_standardize_preserves_computation",
    "C01_standardize_total",
    "C01_standardize_total_without_clifford"
   ],
   "note": "Branch map equality up to a constant phase for every outcome assignment and every edge-set iteration order; totality of standardize."
  },
  {
   "property": "C02",
   "status": "proved",
   "theorems": [
    "C02_standard_order"
   ],
   "note": ""
  },
  {
   "property": "C03",
   "status": "proved",
   "theorems": [
    "C03_standardize_runnable"
   ],
   "note": ""
  },
  {
   "property": "C04",
   "status": "proved",
   "theorems": [
    "C04_check_runnability_exact"
   ],
   "note": ""
  },
  {
   "property": "C05",
   "status": "proved",
   "theorems": [
    "C05_container",
    "C05_history",
    "C05_reorder"
   ],
   "note": "Histories of add/extend/clear/replace/reorder calls."
  },
  {
   "property": "C06",
   "status": "proved",
   "theorems": [
    "C06_direct",
    "C06_direct_removes_signals",
    "C06_mc",
    "C06_rejects",
    "C06_direct_vice_versa_refuted"
   ],
   "note": "Both methods; the direct dictionary maps shifted outcomes to unshifted ones, the mc dictionary the other way; the documented 'or vice versa' is refuted for the direct method. Aliasing of mutable domain sets is not modelled."
  },
  {
   "property": "C07",
   "status": "proved",
   "theorems": [
    "C07_mul",
    "C07_conj",
    "C07_unitary",
    "C07_distinct",
    "C07_hsz",
    "C07_qasm3",
    "C07_measure",
    "C07_named"
   ],
   "note": "Tables transcribed by tools/gen_clifford.py; matrices in Z[i]/sqrt(norm) form interpreted in C."
  },
  {
   "property": "C08",
   "status": "proved",
   "theorems": [
    "C08_commute_domains"
   ],
   "note": ""
  },
  {
   "property": "C09",
   "status": "proved",
   "theorems": [
    "C09_measurement_clifford",
    "C09_to_bloch",
    "C09_vector"
   ],
   "note": ""
  },
  {
   "property": "C10",
   "status": "proved",
   "theorems": [
    "C10_describe_measurement",
    "C10_projector"
   ],
   "note": ""
  },
  {
   "property": "C11",
   "status": "proved",
   "theorems": [
    "C11_pauli_product",
    "C11_pauli_neg",
    "C11_pauli_scale",
    "C11_unit_group",
    "C11_sign",
    "C11_axes"
   ],
   "note": ""
  },
  {
   "property": "C12",
   "status": "proved",
   "theorems": [
    "C12_remove_useless_domains",
    "C12_single_qubit_domains",
    "C12_single_qubit_domains_total"
   ],
   "note": "Every iteration order of the domain sets."
  },
  {
   "property": "C13",
   "status": "proved",
   "theorems": [
    "C13_cut",
    "C13_perform_pauli_pushing"
   ],
   "note": "Cut level and Pattern.perform_pauli_pushing in both modes; bijection of branches; errors characterised."
  },
  {
   "property": "C14",
   "status": "proved",
   "theorems": [
    "C14_topological_generations",
    "C14_layers_unique"
   ],
   "note": "Every finite directed graph and every iteration order of sets; fuel adequacy shown; the layers are unique."
  },
  {
   "property": "C15",
   "status": "proved",
   "theorems": [
    "C15_finder_sound_complete",
    "C15_found_checks",
    "C15_maximally_delayed",
    "C15_pattern"
   ],
   "note": "All iteration orders; soundness, completeness, no error, and optimality (maximal delay) of the flow found."
  },
  {
   "property": "C16",
   "status": "proved",
   "theorems": [
    "C16_elimination",
    "C16_rank",
    "C16_right_inverse",
    "C16_right_inverse_full_rank",
    "C16_null_space",
    "C16_mat_mul",
    "C16_solve"
   ],
   "note": "all routines of _linalg.py: elimination (REF/RREF, row space), rank, right_inverse (iff), null_space (basis), mat_mul, solve; entries modelled as bits, numba loops as row operations"
  },
  {
   "property": "C17",
   "status": "proved",
   "theorems": [
    "C17_pauliflow_sound_complete",
    "C17_gflow_sound_complete",
    "C17_found_checks",
    "C17_minimal_depth",
    "C17_pattern",
    "C17_maximally_delayed_refuted",
    "C17_self_loop_refuted"
   ],
   "note": "Also proved: the docstrings' claim that the flows found are maximally delayed is false (C17_maximally_delayed_refuted), and with self loops the flow found may fail check_well_formed (C17_self_loop_refuted)."
  },
  {
   "property": "C18",
   "status": "proved",
   "theorems": [
    "C18_pauli_flow_deterministic",
    "C18_gflow_deterministic",
    "C18_causal_flow_deterministic",
    "C18_equal_probability",
    "C18_self_loop_refuted"
   ],
   "note": "Every flow accepted by the checker yields a runnable pattern, deterministic in the strong sense (all branch maps equal up to phase), which implements the linear map of the open graph (OGMap.implements)."
  },
  {
   "property": "C19",
   "status": "proved",
   "theorems": [
    "C19_from_mapping_decides",
    "C19_check_well_formed_decides",
    "C19_pattern",
    "C19_unknown_node_refuted",
    "C19_empty_order_refuted"
   ],
   "note": "from_measured_nodes_mapping and check_well_formed decide their documented conditions; patterns contain exactly the given corrections. Two refuted expectations: check_well_formed accepts corrections on unknown nodes; explicit empty order raises IndexError."
  },
  {
   "property": "C20",
   "status": "proved",
   "theorems": [
    "C20_gates",
    "C20_decomposition",
    "C20_circuit",
    "C20_total"
   ],
   "note": "All sixteen instruction kinds, all angles, whole circuits without I; nesting depth shown adequate."
  },
  {
   "property": "C21",
   "status": "proved",
   "theorems": [
    "C21_transpile_without_swaps",
    "C21_transpile",
    "C21_transpile_unitary",
    "C21_rzz_same_qubit_refuted",
    "C21_identity_refuted"
   ],
   "note": "End to end: J/CZ decomposition, graph and causal-flow construction, corrections, standardization, space-optimal pattern, classical outputs, SWAP elimination. Exact branch maps. Refuted outside the hypotheses: RZZ on one qubit (accepted, then ValueError) and the I gate."
  },
  {
   "property": "C22",
   "status": "partial",
   "theorems": [
    "C22_swaps",
    "C22_output_nodes_partial",
    "C22_output_nodes_keyerror",
    "C22_output_nodes_refuted",
    "C22_classical_outputs_refuted"
   ],
   "note": "transpile_swaps proved for all circuits; swap_output_nodes proved exactly when it does not raise KeyError, refuted otherwise (SWAP(0,1); M(0)); order of classical outputs refuted."
  },
  {
   "property": "C23",
   "status": "partial",
   "theorems": [
    "C23_dropped",
    "C23_refuted",
    "C23_no_identity_gate_partial"
   ],
   "note": "False of the code: instructions after an I gate are dropped (C23_refuted, C23_dropped). Proved for circuits without I."
  },
  {
   "property": "C24",
   "status": "proved",
   "theorems": [
    "C24_minimize_space_preserves",
    "C24_minimize_space_default",
    "C24_space_optimal",
    "C24_causal_order_optimal",
    "C24_parallelize_preserves",
    "C24_parallelize_depth",
    "C24_parallelize_no_outputs_refuted",
    "C24_minimize_space_states_refuted"
   ],
   "note": "minimize_space (default and user heuristics), to_space_optimal_pattern, max_space and parallelize_pattern are modelled; refuted for patterns without outputs (parallelize_pattern) and for N commands other than |+> (minimize_space default)."
  },
  {
   "property": "C25",
   "status": "proved",
   "theorems": [
    "C25_compose",
    "C25_rejects",
    "C25_empty_self_refuted"
   ],
   "note": "For good patterns (distinct inputs, runnable, no S command in other) and mappings satisfying the documented conditions: success, complete injective relabelling, labels collide only on fed nodes, inputs/outputs (including preserve_mapping), runnability and branch semantics; other mappings are rejected. C25_empty_self_refuted: an empty self with an empty mapping raises ValueError. Warnings are not modelled."
  },
  {
   "property": "C26",
   "status": "partial",
   "theorems": [
    "C26_refuted",
    "C26_arithmetic_partial",
    "C26_add_exact",
    "C26_with_parameter",
    "C26_with_parameters",
    "C26_substitution_total",
    "C26_subst_commutes_partial"
   ],
   "note": "The property as stated is false of the code ((x+1)-x evaluates to 0): C26_refuted. Proved for all expressions without such a cancellation, with an exact characterisation of the failing additions; substitution fully proved."
  },
  {
   "property": "C27",
   "status": "partial",
   "theorems": [
    "C27_trace_preserving",
    "C27_positive",
    "C27_apply_succeeds",
    "C27_complete",
    "C27_dephasing",
    "C27_depolarising",
    "C27_amplitude_damping",
    "C27_two_qubit_depolarising",
    "C27_two_qubit_depolarising_tensor",
    "C27_two_qubit_amplitude_damping",
    "C27_pauli_channel_refuted",
    "C27_pauli_channel_wrong_action_refuted"
   ],
   "note": "Every constructor except pauli_channel: complete, trace preserving, positive, documented action. pauli_channel: refuted (its Kraus operators are not normalised; the constructor raises ValueError unless px+py+pz=3/4, and even then acts differently)."
  },
  {
   "property": "C28",
   "status": "proved",
   "theorems": [
    "C28_index_convention",
    "C28_tensor",
    "C28_add_plus",
    "C28_swap",
    "C28_entangle",
    "C28_evolve_single",
    "C28_expectation",
    "C28_project",
    "C28_permute"
   ],
   "note": "kernels of sim/statevec.py on arrays of unbounded capacity with exact complex arithmetic; parallel loops run in any order; int32 overflow of indices beyond 2^31 amplitudes not modelled"
  },
  {
   "property": "C29",
   "status": "proved",
   "theorems": [
    "C29_bijection",
    "C29_operations",
    "C29_duplicate_extend_refuted"
   ],
   "note": "All histories; negative Python indices not modelled."
  },
  {
   "property": "C30",
   "status": "proved",
   "theorems": [
    "C30_tableau_round",
    "C30_tableau_round_back",
    "C30_tableau_meaning",
    "C30_str_round",
    "C30_from_str",
    "C30_out_of_range_refuted"
   ],
   "note": "Round trips string <-> tableau <-> text in both directions, with the operator meaning of the tableau; an out-of-range key is refuted (not rejected by the constructor)."
  },
  {
   "property": "C31",
   "status": "proved",
   "theorems": [
    "C31_updates",
    "C31_synthesis",
    "C31_isometry",
    "C31_empty_refuted"
   ],
   "note": "Row updates are conjugations; synthesis realises every valid Clifford map with the announced gate set; n = 0 refuted (ValueError)."
  },
  {
   "property": "C32",
   "status": "proved",
   "theorems": [
    "C32_exp_meaning",
    "C32_ladder",
    "C32_pass",
    "C32_er_to_circuit",
    "C32_incompatible",
    "C32_missing",
    "C32_docstring_refuted"
   ],
   "note": "Ladder = exp(i alpha P) up to phase, whole DAG pass and er_to_circuit; the class docstring's exp(i alpha/2 P) is refuted. Parameterised angles not modelled."
  },
  {
   "property": "C33",
   "status": "proved",
   "theorems": [
    "C33_fixed",
    "C33_const",
    "C33_random",
    "C33_probabilities",
    "C33_certain_zero",
    "C33_impossible_outcome_refuted"
   ],
   "note": "selectors, outcome probabilities; edge case draw=0.0 with p0=0 refuted"
  },
  {
   "property": "C34",
   "status": "proved",
   "theorems": [
    "C34_only_inserts",
    "C34_commands_kept",
    "C34_error",
    "C34_components",
    "C34_input_components",
    "C34_live",
    "C34_confuse",
    "C34_confuse_extreme",
    "C34_noiseless"
   ],
   "note": "Noiseless, depolarising, amplitude-damping and nested composed models; transpile, input_nodes, confuse_result and the sequence run by the simulator."
  },
  {
   "property": "C35",
   "status": "proved",
   "theorems": [
    "C35_to_opengraph",
    "C35_remove_local_clifford",
    "C35_identity_refuted"
   ],
   "note": "all patterns without C(n, I); C35_identity_refuted: a C(n, I) command makes the pass raise PatternError. S commands excluded"
  },
  {
   "property": "C36",
   "status": "partial",
   "theorems": [
    "C36_gates",
    "C36_gate_s_partial",
    "C36_gate_s_refuted",
    "C36_equivalent_graphs",
    "C36_fill_node",
    "C36_measure",
    "C36_measure_z_choice_refuted",
    "C36_extract_vops",
    "C36_apply_vops_partial",
    "C36_apply_vops_identity_refuted",
    "C36_apply_vops_refuted"
   ],
   "note": "GraphState.h, z, equivalent_graph_e1/e2, equivalent_fill_node, measure_x/y/z, extract_vops proved for all simple decorated graphs. s and apply_vops proved except where the code is wrong (hollow+loop+positive node with a neighbour; Clifford.I raises), with refuting witnesses."
  },
  {
   "property": "C37",
   "status": "proved",
   "theorems": [
    "C37_standardized",
    "C37_all_removed",
    "C37_remove_pauli_measurements",
    "C37_isolated_refuted",
    "C37_preparations_refuted"
   ],
   "note": "Whole function, both output forms, all iteration orders; |+> preparations are a hypothesis (C37_preparations_refuted shows it is needed), isolated nodes measured along -X are a documented-warning case (C37_isolated_refuted)."
  },
  {
   "property": "C38",
   "status": "proved",
   "theorems": [
    "C38_simulation",
    "C38_fixed_branch"
   ],
   "note": "state-vector backend, no noise model, exact arithmetic; any selector, any kernel schedule; tolerance explicit"
  },
  {
   "property": "C39",
   "status": "proved",
   "theorems": [
    "C39_construct",
    "C39_neighbors",
    "C39_odd_neighbors",
    "C39_unknown_node",
    "C39_compose",
    "C39_sequential",
    "C39_empty_refuted",
    "C39_common_edge_refuted",
    "C39_clifford_refuted"
   ],
   "note": "construction, neighbourhoods, compose specification and sequential semantics; refuted: empty self, doubled edges, pending Cliffords"
  },
  {
   "property": "C40",
   "status": "proved",
   "theorems": [
    "C40_normalize",
    "C40_normalize_symbolic",
    "C40_integers_refuted",
    "C40_clifford_range",
    "C40_to_pauli_sound",
    "C40_to_pauli_complete",
    "C40_to_pauli_exact",
    "C40_to_pauli_or_bloch",
    "C40_isclose",
    "C40_neg"
   ],
   "note": "exact reals (no float rounding); refuted for Python integers, which normalize_angle leaves alone"
  },
  {
   "property": "C41",
   "status": "partial",
   "theorems": [
    "C41_inferred",
    "C41_accepts",
    "C41_nqubit_refuted",
    "C41_nqubit_zero_vector"
   ],
   "note": "without nqubit: proved; with nqubit: refuted (length not checked)"
  },
  {
   "property": "C42",
   "status": "proved",
   "theorems": [
    "C42_pauli_flow_check_decides",
    "C42_gflow_check_decides",
    "C42_causal_flow_check_decides",
    "C42_flow_hierarchy"
   ],
   "note": "Iff with the published axioms; the P3 docstring in the code says 'either or' where the code (correctly) tests 'both or neither'. GFlow/CausalFlow: planar measurements only (type-level precondition)."
  },
  {
   "property": "C43",
   "status": "proved",
   "theorems": [
    "C43_is_focused_decides",
    "C43_found_focused"
   ],
   "note": ""
  },
  {
   "property": "C44",
   "status": "proved",
   "theorems": [
    "C44_to_pattern"
   ],
   "note": "to_pattern decides existence of a Pauli flow and yields a runnable deterministic pattern implementing the graph"
  },
  {
   "property": "C45",
   "status": "proved",
   "theorems": [
    "C45_round_trip"
   ],
   "note": "round trip pattern -> XZ-corrections -> pattern keeps every branch map; complete list of errors"
  },
  {
   "property": "C46",
   "status": "proved",
   "theorems": [
    "C46_to_pauliflow",
    "C46_pauliflow_round_trip",
    "C46_to_causalflow",
    "C46_to_gflow",
    "C46_pattern_pauliflow",
    "C46_chain_causalflow",
    "C46_chain_gflow",
    "C46_causalflow_round_trip",
    "C46_gflow_round_trip",
    "C46_input_x_refuted",
    "C46_missing_z_refuted"
   ],
   "note": "Sound and complete extraction, round trips and determinism are proved under the hypothesis that no X-correction targets an input. C46_input_x_refuted: with such a correction to_pauliflow returns an ill-formed flow for a non-deterministic pattern. C46_missing_z_refuted: to_causalflow/to_gflow ignore Z-corrections."
  },
  {
   "property": "C47",
   "status": "proved",
   "theorems": [
    "C47_z_axis",
    "C47_j_to_rzh"
   ],
   "note": "all instruction kinds"
  },
  {
   "property": "C48",
   "status": "proved",
   "theorems": [
    "C48_simulation",
    "C48_probabilities",
    "C48_agrees",
    "C48_zero_noise",
    "C48_self_edge_refuted"
   ],
   "note": "Exact arithmetic; is_psd (LAPACK eigenvalues) is a parameter of the model; mixed inputs are finite mixtures of pure states. C48_self_edge_refuted: runnable patterns with E(n,n) raise ValueError on the density-matrix backend but run on the state-vector backend."
  },
  {
   "property": "C49",
   "status": "proved",
   "theorems": [
    "C49_node_mapping",
    "C49_reindex"
   ],
   "note": "node_mapping with all its options; reindex for renamings injective on the nodes; patterns without S commands for reindex."
  },
  {
   "property": "C50",
   "status": "proved",
   "theorems": [
    "C50_extract_circuit",
    "C50_pattern",
    "C50_og_to_circuit",
    "C50_errors",
    "C50_minus_input_refuted"
   ],
   "note": "Restricted to inputs not measured along a negative Pauli axis; without that restriction the claim is false of the code (C50_minus_input_refuted: wrong sign of the image of Z). Default compilation passes only."
  },
  {
   "property": "C51",
   "status": "proved",
   "theorems": [
    "C51_pattern",
    "C51_exact",
    "C51_errors"
   ],
   "note": "Program text abstracted to a syntax tree; OpenQASM semantics of the emitted fragment is part of the specification."
  },
  {
   "property": "C52",
   "status": "partial",
   "theorems": [
    "C52_circuit",
    "C52_exact",
    "C52_direct",
    "C52_rzz_refuted"
   ],
   "note": "Proved for every circuit without RZZ; RZZ is exported as crz, a different gate (C52_rzz_refuted)."
  },
  {
   "property": "C53",
   "status": "proved",
   "theorems": [
    "C53_run",
    "C53_statevector",
    "C53_fixed_branch",
    "C53_agrees",
    "C53_other_input",
    "C53_draws",
    "C53_probability_refuted"
   ],
   "note": "C53_probability_refuted: outcomes are drawn with probability 1/2 even when they are impossible, the state is then nan; an isolated node measured after a command other than N and M may raise"
  },
  {
   "property": "C54",
   "status": "proved",
   "theorems": [
    "C54_partition",
    "C54_terminates",
    "C54_fusion_nodes",
    "C54_equal",
    "C54_ghz_limit_refuted",
    "C54_lin_limit_refuted",
    "C54_ghz_size_refuted",
    "C54_linear_refuted",
    "C54_loop_refuted"
   ],
   "note": "C54_ghz_limit_refuted, C54_lin_limit_refuted: with a GHZ limit at or below a degree, or a linear limit of one, the function may never return; C54_ghz_size_refuted: three-node GHZ clusters ignore max_ghz; C54_linear_refuted: under a GHZ limit a LINEAR cluster may revisit a node; C54_loop_refuted: a self-loop raises KeyError"
  },
  {
   "property": "C55",
   "status": "proved",
   "theorems": [
    "C55_simulate",
    "C55_unitary",
    "C55_pattern_and_circuit",
    "C55_transpile_without_swaps",
    "C55_transpile",
    "C55_transpile_unitary"
   ],
   "note": "Circuit.simulate on the state-vector backend refines the branch semantics; agreement with the transpiled pattern up to a global phase. RZZ on one qubit twice (accepted by the API) is excluded."
  },
  {
   "property": "C56",
   "status": "proved",
   "theorems": [
    "C56_fidelity",
    "C56_isclose",
    "C56_unitary_invariance",
    "C56_expectation_value",
    "C56_to_dict",
    "C56_to_prob_dict",
    "C56_to_dict_no_qubit_refuted",
    "C56_dm_fidelity",
    "C56_ptrace",
    "C56_ptrace_product",
    "C56_dm_swap",
    "C56_dm_cnot",
    "C56_dm_expectation",
    "C56_expectation_mutates_refuted",
    "C56_evolve_repeated_refuted"
   ],
   "note": "Refuted alongside: to_dict of a state without qubits uses the key '0'; DensityMatrix.expectation_single rescales self (in-place division after a shallow copy) when the trace is not one; Statevec.evolve accepts repeated targets and is then not norm-preserving."
  },
  {
   "property": "C57",
   "status": "proved",
   "theorems": [
    "C57_rand_circuit",
    "C57_rand_circuit_usable",
    "C57_rand_circuit_small",
    "C57_rand_gate",
    "C57_rand_gate_refuted",
    "C57_parameters_iterator_refuted",
    "C57_rand_herm",
    "C57_rand_dm",
    "C57_rand_state_vector",
    "C57_rand_channel_kraus",
    "C57_pauli_ops",
    "C57_rand_pauli_channel"
   ],
   "note": "Refuted alongside: use_rzz still puts CNOTs in the first entangling layer, depth 0 gives depth 1, an iterator of pairs is used by the first layer only and an iterator of parameters by RX only. A zero draw makes rand_pauli_channel_kraus fail (IndexError). rand_unit (dim > 1), sqrtm and inv of scipy are taken by their specification; the distributions are not modelled."
  },
  {
   "property": "C58",
   "status": "proved",
   "theorems": [
    "C58_recognize",
    "C58_complex",
    "C58_decimal_sum_refuted",
    "C58_phase_sum_refuted",
    "C58_tolerance_refuted",
    "C58_state",
    "C58_statevec"
   ],
   "note": "rtol = 0 (the default) and maxden <= 1000. The parenthesis bugs and the square-root tolerance are proved as _refuted theorems; the readability theorems state the classes of amplitudes for which the printed state is right."
  },
  {
   "property": "C59",
   "status": "proved",
   "theorems": [
    "C59_command",
    "C59_pattern",
    "C59_direction",
    "C59_limit",
    "C59_angle",
    "C59_fraction",
    "C59_flow",
    "C59_xzcorr",
    "C59_layers",
    "C59_limit_refuted",
    "C59_label_refuted"
   ],
   "note": "Symbolic (parametric) angles and ApplyNoise commands are not modelled. C59_limit_refuted: the documented 'only first limit commands are printed' is false (limit-1 are, the last ones when printing right to left, and limit=0 prints commands and miscounts). C59_label_refuted: eight different Clifford gates share the label I^{1/3}, so the text does not determine the gate."
  },
  {
   "property": "C60",
   "status": "proved",
   "theorems": [
    "C60_layout",
    "C60_layer_texts",
    "C60_flow_arrows",
    "C60_xz_arrows",
    "C60_near",
    "C60_control_point",
    "C60_curve",
    "C60_drawing",
    "C60_arrow",
    "C60_self_loop",
    "C60_shorten",
    "C60_distance_refuted"
   ],
   "note": "Causal-flow layout, arrows and colours of flows and XZ-corrections, paths and curves; the networkx layouts of other objects are arbitrary positions; float rounding not modelled"
  },
  {
   "property": "C61",
   "status": "proved",
   "theorems": [
    "C61_fields",
    "C61_fields_determine",
    "C61_exceptions",
    "C61_identity",
    "C61_compose",
    "C61_history",
    "C61_copy",
    "C61_in_place",
    "C61_rename",
    "C61_rename_builds",
    "C61_rename_refuted",
    "C61_active",
    "C61_active_refuted",
    "C61_whole_turns",
    "C61_replace_parameter",
    "C61_replace_parameters",
    "C61_all_numbers",
    "C61_is_parameterized",
    "C61_is_parameterized_sound",
    "C61_is_parameterized_refuted"
   ],
   "note": "The claims the code does not meet (renamings outside the register, active qubits of copies, J gates in is_parameterized) are stated as C61_rename_refuted, C61_active_refuted and C61_is_parameterized_refuted."
  },
  {
   "property": "C62",
   "status": "proved",
   "theorems": [
    "C62_axes",
    "C62_from_axes",
    "C62_from_axes_error",
    "C62_from_axes_sym",
    "C62_polar",
    "C62_density",
    "C62_mean",
    "C62_born",
    "C62_measure_own",
    "C62_eigenstate",
    "C62_eigenstate_identity",
    "C62_eigenstate_orthogonal",
    "C62_eigenstate_error",
    "C62_pauli_measurement",
    "C62_iterate",
    "C62_iterate_measurements",
    "C62_clifford_plane",
    "C62_clifford_compose",
    "C62_clifford_axis"
   ],
   "note": "planes, axes, planar states, Pauli eigenstates, measurements and Clifford gates compared on the Bloch sphere; exact reals"
  },
  {
   "property": "C63",
   "status": "proved",
   "theorems": [
    "C63_apply",
    "C63_map",
    "C63_map_runnable",
    "C63_same_computation",
    "C63_runnable",
    "C63_blochify",
    "C63_downcast",
    "C63_infer",
    "C63_infer_exact",
    "C63_present",
    "C63_space_list",
    "C63_space_list_refuted",
    "C63_max_space",
    "C63_graph",
    "C63_isolated",
    "C63_connected",
    "C63_connected_error",
    "C63_connected_refuted",
    "C63_corrections"
   ],
   "note": "false of the code: space_list ignores the inputs, connected_nodes raises IndexError on graph states (witnesses proved)"
  },
  {
   "property": "C64",
   "status": "proved",
   "theorems": [
    "C64_structural",
    "C64_structural_equivalence",
    "C64_isclose",
    "C64_isclose_sym",
    "C64_exact",
    "C64_exact_map",
    "C64_map",
    "C64_map_same_computation",
    "C64_to_bloch",
    "C64_downcast",
    "C64_infer",
    "C64_infer_exact"
   ],
   "note": "complete for float angles; is_equal_structurally, isclose, map, to_bloch, downcast_bloch, infer_pauli_measurements"
  },
  {
   "property": "C65",
   "status": "proved",
   "theorems": [
    "C65_is_qubitop",
    "C65_ilog2",
    "C65_ilog2_floor",
    "C65_ilog2_floor_refuted",
    "C65_kraus_data",
    "C65_channel",
    "C65_channel_exact",
    "C65_channel_model",
    "C65_is_hermitian",
    "C65_is_unit_trace",
    "C65_is_psd"
   ],
   "note": "complete; eigenvalues of is_psd are a parameter; the docstring of _ilog2 (floor) is false off powers of two (C65_ilog2_floor_refuted)"
  },
  {
   "property": "C66",
   "status": "proved",
   "theorems": [
    "C66_tensor_in_bounds",
    "C66_add_default_in_bounds",
    "C66_swap_in_bounds",
    "C66_entangle_in_bounds",
    "C66_evolve_in_bounds",
    "C66_project_in_bounds",
    "C66_ensure_capacity",
    "C66_constructor",
    "C66_copy",
    "C66_add_plus",
    "C66_tensor",
    "C66_methods",
    "C66_history",
    "C66_no_reallocation",
    "C66_swap_signed",
    "C66_swap_unchecked_refuted"
   ],
   "note": "complete"
  }
 ]
}