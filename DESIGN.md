# Formal model of TeamGraphix/graphix in Coq 8.16.1

## Approach

* **The model** is a set of total computable Gallina functions that follow the
  Python function by function and branch by branch. Every definition cites the
  file and lines it models. Exceptions are values (`res A := Ok a | Err e`, with
  one constructor per Python exception class that the modelled code raises).
  Python loops over a `set` take their iteration order from a parameter
  `it : iter` of which only `iter_ok` (it lists exactly the elements, once) is
  assumed, so theorems hold for every hash order; loops that the Python runs to a
  fixpoint take fuel, and fuel adequacy is proved (no theorem has a fuel
  hypothesis).
* **Data.** Nodes are `nat`; finite sets are `nset` (canonical bit sets, so
  equality of sets is Leibniz equality); dicts are association lists in
  insertion order; floats are idealised as real numbers, complex numbers as pairs
  of reals; angles are in units of pi.
* **Quantum meaning** (`QState.v`, independent of the code). A state is an
  amplitude function `(nat -> bool) -> C`; elementary operations (prepare,
  CZ, 1-qubit matrix, projection on a vector) are linear maps on such functions.
  A *branch* of a pattern is an outcome assignment `nat -> bool`;
  `den (seq_ops o l)` is the (unnormalised) linear map of the command list `l` in
  branch `o`. `≈` is equality of maps up to one unit scalar that does not depend
  on the input. Equivalence statements are branch by branch, and are stated for
  all input states that do not involve the nodes the pattern prepares.
* **Specifications** are stated with matrices, branch maps, graph axioms or
  list/set vocabulary, not with the helpers of the model. Property theorems are
  in `theories/Prop*.v`, each followed by `Print Assumptions` and by `Example`s
  with concrete non-trivial instances that meet its hypotheses.
* **Defects.** Where the code does not satisfy the English property, the property
  is proved under the weakest hypothesis found, and a theorem `Cnn_..._refuted`
  exhibits a concrete counterexample in the model. `_partial` marks theorems that
  cover part of a property.
* **Mutation testing**: `seeded/LOG.jsonl` lists edits of the model that imitate
  realistic bugs and the theorems that then fail.

## Trusted base

* Coq 8.16.1's kernel (with `vm_compute`, used on finite tables).
* Standard-library axioms, and nothing else: `functional_extensionality_dep`,
  `ClassicalDedekindReals.sig_forall_dec`, `ClassicalDedekindReals.sig_not_dec`
  (the last two come with `Reals`). The table at the end of this file gives the
  output of `Print Assumptions` for every property theorem. No axiom, functor,
  module type, `Admitted` or unsafe flag is used. `Section` variables are all
  discharged.
* The hand translation from Python to Gallina, documented on each definition, and
  the semantics of the Python built-ins, of networkx, numpy and numba that the
  modelled functions call (modelled by their documented results).
* Idealisations: exact real arithmetic instead of floating point (tolerances of
  the code are explicit parameters where they decide something); unbounded
  integers; no concurrency except the parallel loops of the state-vector kernels,
  whose iterations run in an arbitrary order.

## What is modelled

| file of /repo/graphix | modelled in |
|---|---|
| command.py, pattern.py (container, runnability, standardize, shift_signals, Pauli pushing, removal passes, reindex, compose, extraction, max_space, minimize_space, parallelize, apply, node counts and neighbours) | Pattern, Standardize, Shift, Cleanup, Push, Reindex, Space*, Extract, Recon, RemovePauli, LCFree, PropPatInfo |
| optimization.py (StandardizedPattern and all passes) | Standardize, Shift, Cleanup, Push, Extract, LCFree |
| remove_pauli_measurements.py | Push, RemovePauli* , RunBranch |
| clifford.py, _db.py, pauli.py, fundamentals.py, states.py (basic states), measurements.py | CliffordDb, Clifford, Fundamentals, Measure, PropAngle, PropBloch |
| opengraph.py | OpenGraph, Compose, OGMap |
| flow/core.py, flow/_partial_order.py, flow/_find_cflow.py, flow/_find_gpflow.py | Flow, FlowSpec, FlowWF, FlowPat, FlowDet, TopGen, Corr, CFlow, GP*, Focus, Recon |
| _linalg.py | Linalg, LinalgThm |
| transpiler.py, instruction.py, ops.py (matrices) | Circuit, Swaps, Transpile*, PropRewrite, CircSim (simulate) |
| space_minimization.py | SpaceMin, SpaceHeur |
| circ_ext/compilation.py, circ_ext/extraction.py (Pauli strings, Clifford maps, ladders, synthesis) | PauliStr, PauliOp, Berg, Ladder, FlowCirc (extraction from a flow), FlowCircSem/Str/Load/Map/Ext/Fin (proofs) |
| graphsim.py | GState, GraphSim* |
| sim/statevec.py, sim/base_backend.py (NodeIndex, backend), simulator.py, branch_selector.py | Statevec, NodeIndex, Simulator, CircSim (evolve, swap), Inspect (fidelity, isclose, to_dict, expectation_value) |
| sim/density_matrix.py, channels.py, noise_models/* | Density, DMSim, DMRun, Noise, Inspect (ptrace, fidelity, swap, cnot) |
| sim/tensornet.py (TensorNetworkBackend, MBQCTensorNet; quimb by its specification, expectation values not modelled) | TensorNet, TensorThm, TensorGraph, TensorRun |
| extraction.py (fusion networks) | Fusion, FusionThm |
| qasm3_exporter.py, pretty_print.py (angle_to_str) | Qasm, QasmThm, QasmCirc |
| pretty_print.py (numbers and state vectors, as tokens) | Pretty, PrettySpec |
| pretty_print.py (commands, patterns, angles, flows, corrections, as code points) | PrettyPat |
| transpiler.py, instruction.py (visitors, apply_angle, parameters; instruction objects in a store) | Visit |
| visualization.py (causal-flow layout, arrows, colours, paths and curves; not the networkx layouts nor matplotlib) | Draw |
| parameter.py (affine expressions) | Param |
| random_objects.py (draws as parameters, distributions not modelled; rand_unit, sqrtm, inv by specification) | RandObj |

Not modelled: pretty_print.py (matrices, symbolic angles, column alignment), device interfaces,
logging/warnings, deprecated aliases, `Circuit.simulate_statevector`'s Monte-Carlo
layer beyond branch selection, parameterised (symbolic) angles outside
parameter.py, plugin subclasses of BaseN/BaseM, in-place aliasing of Python
objects outside Visit (functions are modelled by their return value; in-place variants by the
new contents of `self`).


## Property by property

### C01 Standardization preserves the computation (proved)

Model StandardizedPattern.from_pattern as the loop over commands with its dictionaries (Standardize.v); invariant: branch map of the commands read so far = branch map of the standard form (commutation lemmas of Layer.v), by induction on the prefix.

Note: Branch map equality up to a constant phase for every outcome assignment and every edge-set iteration order; totality of standardize.

Theorems: `C01_standardize_preserves_computation`, `C01_standardize_total`, `C01_standardize_total_without_clifford`.

### C02 Standardized patterns are in N,E,M,Z,X,C order (proved)

Shape of std_cmds read off the construction; stated on positions of command kinds.

Theorems: `C02_standard_order`.

### C03 Standardization preserves runnability (proved)

Same invariant carries runnability of the standard form (domains refer to measured nodes).

Theorems: `C03_standardize_runnable`.

### C04 Runnability check is exact (proved)

check_runnability's state (active, measured) characterised by the prefix; stated against a prefix-quantified definition `runnable` of section 2 of the docs.

Theorems: `C04_check_runnability_exact`.

### C05 Pattern container invariants (proved)

Induction over arbitrary histories of container operations.

Note: Histories of add/extend/clear/replace/reorder calls.

Theorems: `C05_container`, `C05_history`, `C05_reorder`.

### C06 Signal shifting preserves the computation (proved)

Both signal-shifting methods; the branch map with shifted outcomes is related to the original by the returned dictionary; induction on the sequence with the pending-signal dictionary as invariant.

Note: Both methods; the direct dictionary maps shifted outcomes to unshifted ones, the mc dictionary the other way; the documented 'or vice versa' is refuted for the direct method. Aliasing of mutable domain sets is not modelled.

Theorems: `C06_direct`, `C06_direct_removes_signals`, `C06_mc`, `C06_rejects`, `C06_direct_vice_versa_refuted`.

### C07 Clifford tables agree with the matrices (proved)

Tables transcribed from _db.py; matrices in Z[i] times 1/sqrt n, compared by computation and transported to C by a soundness lemma.

Note: Tables transcribed by tools/gen_clifford.py; matrices in Z[i]/sqrt(norm) form interpreted in C.

Theorems: `C07_mul`, `C07_conj`, `C07_unitary`, `C07_distinct`, `C07_hsz`, `C07_qasm3`, `C07_measure`, `C07_named`.

### C08 commute_domains is correct (proved)

Case analysis of H/S/Z words, XZ-conjugation lemmas, parity of symmetric differences.

Theorems: `C08_commute_domains`.

### C09 Measurement.clifford is correct for every angle (proved)

Projector of the measurement conjugated by the Clifford, for all real angles and planes; trigonometry.

Theorems: `C09_measurement_clifford`, `C09_to_bloch`, `C09_vector`.

### C10 Adaptive measurement description implements X^s Z^t (proved)

Vector of the described measurement = X^s Z^t applied to the vector, up to phase.

Theorems: `C10_describe_measurement`, `C10_projector`.

### C11 Pauli algebra is exact (proved)

Matrix identities over all Paulis/signs.

Theorems: `C11_pauli_product`, `C11_pauli_neg`, `C11_pauli_scale`, `C11_unit_group`, `C11_sign`, `C11_axes`.

### C12 Domain clean-up passes preserve the computation (proved)

The three domain clean-up passes; rewriting relation preserved command by command.

Note: Every iteration order of the domain sets.

Theorems: `C12_remove_useless_domains`, `C12_single_qubit_domains`, `C12_single_qubit_domains_total`.

### C13 Pauli pushing preserves the computation (proved)

Cut loop invariant (commuted measurements, expanded domains), bijection of branches by the shifted-signal dictionary.

Note: Cut level and Pattern.perform_pauli_pushing in both modes; bijection of branches; errors characterised.

Theorems: `C13_cut`, `C13_perform_pauli_pushing`.

### C14 Topological generations are correct (proved)

Kahn's algorithm with arbitrary set order; layers characterised by longest paths; fuel adequacy.

Note: Every finite directed graph and every iteration order of sets; fuel adequacy shown; the layers are unique.

Theorems: `C14_topological_generations`, `C14_layers_unique`.

### C15 Causal-flow finder is sound and complete (proved)

Layer-by-layer causal flow search; soundness, completeness and maximal delay by induction on layers.

Note: All iteration orders; soundness, completeness, no error, and optimality (maximal delay) of the flow found.

Theorems: `C15_finder_sound_complete`, `C15_found_checks`, `C15_maximally_delayed`, `C15_pattern`.

### C16 GF(2) linear algebra is correct (proved)

Bit matrices as lists of rows; elimination invariants; row space and null space specifications by linear combinations over GF(2).

Note: all routines of _linalg.py: elimination (REF/RREF, row space), rank, right_inverse (iff), null_space (basis), mat_mul, solve; entries modelled as bits, numba loops as row operations

Theorems: `C16_elimination`, `C16_rank`, `C16_right_inverse`, `C16_right_inverse_full_rank`, `C16_null_space`, `C16_mat_mul`, `C16_solve`.

### C17 gflow / Pauli-flow finder is sound and complete (proved)

Algebraic Pauli-flow algorithm: order-demand matrices, reduction to linear systems; soundness and completeness w.r.t. the axioms of Pauli flow (Browne et al.), by the loop invariant on solved columns and a focusing argument.

Note: Also proved: the docstrings' claim that the flows found are maximally delayed is false (C17_maximally_delayed_refuted), and with self loops the flow found may fail check_well_formed (C17_self_loop_refuted).

Theorems: `C17_pauliflow_sound_complete`, `C17_gflow_sound_complete`, `C17_found_checks`, `C17_minimal_depth`, `C17_pattern`, `C17_maximally_delayed_refuted`, `C17_self_loop_refuted`.

### C18 Flow implies determinism (proved)

Stabiliser argument: corrections of a node cancel its outcome; induction along the measurement order (FlowDet.v, FlowSem.v).

Note: Every flow accepted by the checker yields a runnable pattern, deterministic in the strong sense (all branch maps equal up to phase), which implements the linear map of the open graph (OGMap.implements).

Theorems: `C18_pauli_flow_deterministic`, `C18_gflow_deterministic`, `C18_causal_flow_deterministic`, `C18_equal_probability`, `C18_self_loop_refuted`.

### C19 XZ-corrections are compatible with their partial order (proved)

from_measured_nodes_mapping, check_well_formed, order compatibility, on the model of XZCorrections.

Note: from_measured_nodes_mapping and check_well_formed decide their documented conditions; patterns contain exactly the given corrections. Two refuted expectations: check_well_formed accepts corrections on unknown nodes; explicit empty order raises IndexError.

Theorems: `C19_from_mapping_decides`, `C19_check_well_formed_decides`, `C19_pattern`, `C19_unknown_node_refuted`, `C19_empty_order_refuted`.

### C20 J/CZ decomposition of every gate is exact (proved)

Each gate's J/CZ decomposition equals the gate's matrix up to a phase; circuits by induction; recursion depth adequate.

Note: All sixteen instruction kinds, all angles, whole circuits without I; nesting depth shown adequate.

Theorems: `C20_gates`, `C20_decomposition`, `C20_circuit`, `C20_total`.

### C21 Circuit transpilation is correct (proved)

Whole transpiler: J/CZ steps build a graph with a causal flow; the pattern of the flow implements the circuit; composed with C24 for the space-optimal order.

Note: End to end: J/CZ decomposition, graph and causal-flow construction, corrections, standardization, space-optimal pattern, classical outputs, SWAP elimination. Exact branch maps. Refuted outside the hypotheses: RZZ on one qubit (accepted, then ValueError) and the I gate.

Theorems: `C21_transpile_without_swaps`, `C21_transpile`, `C21_transpile_unitary`, `C21_rzz_same_qubit_refuted`, `C21_identity_refuted`.

### C22 Swap elimination is correct (partial)

transpile_swaps as a permutation invariant; failing cases refuted.

Note: transpile_swaps proved for all circuits; swap_output_nodes proved exactly when it does not raise KeyError, refuted otherwise (SWAP(0,1); M(0)); order of classical outputs refuted.

Theorems: `C22_swaps`, `C22_output_nodes_partial`, `C22_output_nodes_keyerror`, `C22_output_nodes_refuted`, `C22_classical_outputs_refuted`.

### C23 No instruction is lost in transpilation (partial)

Coverage of instructions by the decomposition; counterexample for the I gate.

Note: False of the code: instructions after an I gate are dropped (C23_refuted, C23_dropped). Proved for circuits without I.

Theorems: `C23_dropped`, `C23_refuted`, `C23_no_identity_gate_partial`.

### C24 Space-optimal reordering preserves the computation (proved)

Measurement orders produced by the three heuristics; delayed preparation is shown to preserve every branch; max_space against a specification of live nodes.

Note: minimize_space (default and user heuristics), to_space_optimal_pattern, max_space and parallelize_pattern are modelled; refuted for patterns without outputs (parallelize_pattern) and for N commands other than |+> (minimize_space default).

Theorems: `C24_minimize_space_preserves`, `C24_minimize_space_default`, `C24_space_optimal`, `C24_causal_order_optimal`, `C24_parallelize_preserves`, `C24_parallelize_depth`, `C24_parallelize_no_outputs_refuted`, `C24_minimize_space_states_refuted`.

### C25 Pattern composition is functional composition (proved)

compose = relabelling + concatenation; sequential composition of branch maps through the plugged nodes.

Note: For good patterns (distinct inputs, runnable, no S command in other) and mappings satisfying the documented conditions: success, complete injective relabelling, labels collide only on fed nodes, inputs/outputs (including preserve_mapping), runnability and branch semantics; other mappings are rejected. C25_empty_self_refuted: an empty self with an empty mapping raises ValueError. Warnings are not modelled.

Theorems: `C25_compose`, `C25_rejects`, `C25_empty_self_refuted`.

### C26 Affine expressions are substituted correctly (partial)

Affine expressions as coefficient dictionaries; substitution and evaluation; cancellation bug characterised exactly.

Note: The property as stated is false of the code ((x+1)-x evaluates to 0): C26_refuted. Proved for all expressions without such a cancellation, with an exact characterisation of the failing additions; substitution fully proved.

Theorems: `C26_refuted`, `C26_arithmetic_partial`, `C26_add_exact`, `C26_with_parameter`, `C26_with_parameters`, `C26_substitution_total`, `C26_subst_commutes_partial`.

### C27 Noise channels are trace preserving and as documented (partial)

Kraus operators of each constructor; completeness and closed-form action over all probabilities; density matrices as functions.

Note: Every constructor except pauli_channel: complete, trace preserving, positive, documented action. pauli_channel: refuted (its Kraus operators are not normalised; the constructor raises ValueError unless px+py+pz=3/4, and even then acts differently).

Theorems: `C27_trace_preserving`, `C27_positive`, `C27_apply_succeeds`, `C27_complete`, `C27_dephasing`, `C27_depolarising`, `C27_amplitude_damping`, `C27_two_qubit_depolarising`, `C27_two_qubit_depolarising_tensor`, `C27_two_qubit_amplitude_damping`, `C27_pauli_channel_refuted`, `C27_pauli_channel_wrong_action_refuted`.

### C28 State-vector kernels implement their quantum operation (proved)

Array kernels index by index, with arbitrary schedule of the parallel loop; result equals the operator on the amplitude function.

Note: kernels of sim/statevec.py on arrays of unbounded capacity with exact complex arithmetic; parallel loops run in any order; int32 overflow of indices beyond 2^31 amplitudes not modelled

Theorems: `C28_index_convention`, `C28_tensor`, `C28_add_plus`, `C28_swap`, `C28_entangle`, `C28_evolve_single`, `C28_expectation`, `C28_project`, `C28_permute`.

### C29 NodeIndex is a bijection under every history (proved)

Invariant of the two maps of NodeIndex over all histories.

Note: All histories; negative Python indices not modelled.

Theorems: `C29_bijection`, `C29_operations`, `C29_duplicate_extend_refuted`.

### C30 Pauli strings and tableaux round trip (proved)

Pauli strings, symplectic rows and text; operators as matrices on n qubits.

Note: Round trips string <-> tableau <-> text in both directions, with the operator meaning of the tableau; an out-of-range key is refuted (not rejected by the constructor).

Theorems: `C30_tableau_round`, `C30_tableau_round_back`, `C30_tableau_meaning`, `C30_str_round`, `C30_from_str`, `C30_out_of_range_refuted`.

### C31 Clifford synthesis tableau updates are conjugations (proved)

Row updates are conjugations; the van den Berg synthesis loop invariant.

Note: Row updates are conjugations; synthesis realises every valid Clifford map with the announced gate set; n = 0 refuted (ValueError).

Theorems: `C31_updates`, `C31_synthesis`, `C31_isometry`, `C31_empty_refuted`.

### C32 Pauli-exponential ladder is exact (proved)

CNOT ladder plus basis change = exp(i a P) (cos + i sin P), DAG pass schedules commuting rotations.

Note: Ladder = exp(i alpha P) up to phase, whole DAG pass and er_to_circuit; the class docstring's exp(i alpha/2 P) is refuted. Parameterised angles not modelled.

Theorems: `C32_exp_meaning`, `C32_ladder`, `C32_pass`, `C32_er_to_circuit`, `C32_incompatible`, `C32_missing`, `C32_docstring_refuted`.

### C33 Branch selectors (proved)

Every selector's outcome and probability; sequences of calls.

Note: selectors, outcome probabilities; edge case draw=0.0 with p0=0 refuted

Theorems: `C33_fixed`, `C33_const`, `C33_random`, `C33_probabilities`, `C33_certain_zero`, `C33_impossible_outcome_refuted`.

### C34 Noise-model transpilation only inserts noise (proved)

Noise-model transpilation returns the original commands as a subsequence plus noise commands; counts and positions.

Note: Noiseless, depolarising, amplitude-damping and nested composed models; transpile, input_nodes, confuse_result and the sequence run by the simulator.

Theorems: `C34_only_inserts`, `C34_commands_kept`, `C34_error`, `C34_components`, `C34_input_components`, `C34_live`, `C34_confuse`, `C34_confuse_extreme`, `C34_noiseless`.

### C35 Local-Clifford removal preserves the computation (proved)

Gadget of each of the 24 Cliffords (teleportation along a line, induction on its length); loop invariant with a bijection of labels, the branch map relabelled, and fresh labels.

Note: all patterns without C(n, I); C35_identity_refuted: a C(n, I) command makes the pass raise PatternError. S commands excluded

Theorems: `C35_to_opengraph`, `C35_remove_local_clifford`, `C35_identity_refuted`.

### C36 Graph-state rewriting preserves the state (partial)

Decorated graph states (signs, loops, hollow nodes) denote states; each rewriting is a stabiliser/local-complementation identity.

Note: GraphState.h, z, equivalent_graph_e1/e2, equivalent_fill_node, measure_x/y/z, extract_vops proved for all simple decorated graphs. s and apply_vops proved except where the code is wrong (hollow+loop+positive node with a neighbour; Clifford.I raises), with refuting witnesses.

Theorems: `C36_gates`, `C36_gate_s_partial`, `C36_gate_s_refuted`, `C36_equivalent_graphs`, `C36_fill_node`, `C36_measure`, `C36_measure_z_choice_refuted`, `C36_extract_vops`, `C36_apply_vops_partial`, `C36_apply_vops_identity_refuted`, `C36_apply_vops_refuted`.

### C37 Removing Pauli measurements preserves the pattern (proved)

Worklist algorithm with arbitrary set order: state invariant relating the annotated graph to the pushed pattern in every branch; termination measure; reading back the standard pattern.

Note: Whole function, both output forms, all iteration orders; |+> preparations are a hypothesis (C37_preparations_refuted shows it is needed), isolated nodes measured along -X are a documented-warning case (C37_isolated_refuted).

Theorems: `C37_standardized`, `C37_all_removed`, `C37_remove_pauli_measurements`, `C37_isolated_refuted`, `C37_preparations_refuted`.

### C38 Simulator refines the branch semantics (proved)

Simulation loop on the array model (C28, C29): the amplitudes of the final state are the branch map of the outcomes drawn, normalised.

Note: state-vector backend, no noise model, exact arithmetic; any selector, any kernel schedule; tolerance explicit

Theorems: `C38_simulation`, `C38_fixed_branch`.

### C39 Open-graph composition and validation (proved)

og_make's checks against the definition; composition as union of graphs; sequential semantics of graph maps.

Note: construction, neighbourhoods, compose specification and sequential semantics; refuted: empty self, doubled edges, pending Cliffords

Theorems: `C39_construct`, `C39_neighbors`, `C39_odd_neighbors`, `C39_unknown_node`, `C39_compose`, `C39_sequential`, `C39_empty_refuted`, `C39_common_edge_refuted`, `C39_clifford_refuted`.

### C40 Angles of measurements (proved)

normalize_angle and measurement-angle helpers over the reals.

Note: exact reals (no float rounding); refuted for Python integers, which normalize_angle leaves alone

Theorems: `C40_normalize`, `C40_normalize_symbolic`, `C40_integers_refuted`, `C40_clifford_range`, `C40_to_pauli_sound`, `C40_to_pauli_complete`, `C40_to_pauli_exact`, `C40_to_pauli_or_bloch`, `C40_isclose`, `C40_neg`.

### C41 State-vector construction validates its data (partial)

State-vector constructor's validation for each kind of data.

Note: without nqubit: proved; with nqubit: refuted (length not checked)

Theorems: `C41_inferred`, `C41_accepts`, `C41_nqubit_refuted`, `C41_nqubit_zero_vector`.

### C42 Flow well-formedness checks decide the flow axioms (proved)

Each checker of flow/core.py decides its axioms (iff).

Note: Iff with the published axioms; the P3 docstring in the code says 'either or' where the code (correctly) tests 'both or neither'. GFlow/CausalFlow: planar measurements only (type-level precondition).

Theorems: `C42_pauli_flow_check_decides`, `C42_gflow_check_decides`, `C42_causal_flow_check_decides`, `C42_flow_hierarchy`.

### C43 Flows found are focused, and is_focused decides focusedness (proved)

Focused sets by odd neighbourhoods; the finder's output is focused.

Theorems: `C43_is_focused_decides`, `C43_found_focused`.

### C44 Pattern synthesis from an open graph (proved)

C15 + C17 + C18 combined for OpenGraph.to_pattern.

Note: to_pattern decides existence of a Pauli flow and yields a runnable deterministic pattern implementing the graph

Theorems: `C44_to_pattern`.

### C45 Pattern to XZ-corrections and back (proved)

Reading XZ-corrections off a pattern and generating it back.

Note: round trip pattern -> XZ-corrections -> pattern keeps every branch map; complete list of errors

Theorems: `C45_round_trip`.

### C46 Flows extracted from corrections and patterns (proved)

Flow reconstruction from corrections and patterns, with the error cases.

Note: Sound and complete extraction, round trips and determinism are proved under the hypothesis that no X-correction targets an input. C46_input_x_refuted: with such a correction to_pauliflow returns an ill-formed flow for a non-deterministic pattern. C46_missing_z_refuted: to_causalflow/to_gflow ignore Z-corrections.

Theorems: `C46_to_pauliflow`, `C46_pauliflow_round_trip`, `C46_to_causalflow`, `C46_to_gflow`, `C46_pattern_pauliflow`, `C46_chain_causalflow`, `C46_chain_gflow`, `C46_causalflow_round_trip`, `C46_gflow_round_trip`, `C46_input_x_refuted`, `C46_missing_z_refuted`.

### C47 Rewriting of measurements and J gates in circuits (proved)

Circuit rewriting passes (Z measurements, J gates) keep the branch maps.

Note: all instruction kinds

Theorems: `C47_z_axis`, `C47_j_to_rzh`.

### C48 Density-matrix simulation, with and without noise (proved)

Density-matrix backend: the run is the sum over Kraus/branches; refines the pure-state semantics without noise.

Note: Exact arithmetic; is_psd (LAPACK eigenvalues) is a parameter of the model; mixed inputs are finite mixtures of pure states. C48_self_edge_refuted: runnable patterns with E(n,n) raise ValueError on the density-matrix backend but run on the state-vector backend.

Theorems: `C48_simulation`, `C48_probabilities`, `C48_agrees`, `C48_zero_noise`, `C48_self_edge_refuted`.

### C49 Node relabelling is injective and only renames (proved)

node_mapping's loop invariant; reindex keeps branch maps up to relabelling.

Note: node_mapping with all its options; reindex for renamings injective on the nodes; patterns without S commands for reindex.

Theorems: `C49_node_mapping`, `C49_reindex`.

### C50 Circuit extraction from a flow computes the map of the open graph (proved)

Extraction model (FlowCirc.v); absorption of Pauli products by the measurements at angle 0, one exponential per rotated measurement, injectivity of the map of a graph with flow, Schur lemma for the Clifford part, synthesis theorems C31/C32.

Note: Restricted to inputs not measured along a negative Pauli axis; without that restriction the claim is false of the code (C50_minus_input_refuted: wrong sign of the image of Z). Default compilation passes only.

Theorems: `C50_extract_circuit`, `C50_pattern`, `C50_og_to_circuit`, `C50_errors`, `C50_minus_input_refuted`.

### C51 Exporting a pattern to OpenQASM 3 preserves its meaning (proved)

The printed program as a syntax tree, with a semantics of the emitted OpenQASM 3 fragment where measured qubits stay in the register; invariant over the commands: the state of the program is the state of the pattern masked by the observed outcomes.

Note: Program text abstracted to a syntax tree; OpenQASM semantics of the emitted fragment is part of the specification.

Theorems: `C51_pattern`, `C51_exact`, `C51_errors`.

### C52 Exporting a circuit to OpenQASM 3 preserves its meaning (partial)

Same semantics; one instruction at a time, after the two rewriting passes of C47; RZZ refuted by the program printed (crz).

Note: Proved for every circuit without RZZ; RZZ is exported as crz, a different gate (C52_rzz_refuted).

Theorems: `C52_circuit`, `C52_exact`, `C52_direct`, `C52_rzz_refuted`.

### C53 Tensor-network simulation returns the state of the selected branch (proved)

Networks as lists of tensors with named indices, contraction as a sum over all index values; invariant: the network, with the dangling indices of the live nodes left open, is a scalar times the branch state; prepare_graph_state proved to be the graph state; the SVD split of CZ is any pair of tensors that contracts to CZ.

Note: C53_probability_refuted: outcomes are drawn with probability 1/2 even when they are impossible, the state is then nan; an isolated node measured after a command other than N and M may raise

Theorems: `C53_run`, `C53_statevector`, `C53_fixed_branch`, `C53_agrees`, `C53_other_input`, `C53_draws`, `C53_probability_refuted`.

### C54 The fusion network of a graph partitions its edges into stars and lines (proved)

Graphs as ordered adjacency dicts; invariant: remaining edges and cluster edges partition the edges of the graph and the counter is their number; the main loop with explicit fuel (None = still running), termination by the counter, non-termination by a fixed point of the loop body.

Note: C54_ghz_limit_refuted, C54_lin_limit_refuted: with a GHZ limit at or below a degree, or a linear limit of one, the function may never return; C54_ghz_size_refuted: three-node GHZ clusters ignore max_ghz; C54_linear_refuted: under a GHZ limit a LINEAR cluster may revisit a node; C54_loop_refuted: a self-loop raises KeyError

Theorems: `C54_partition`, `C54_terminates`, `C54_fusion_nodes`, `C54_equal`, `C54_ghz_limit_refuted`, `C54_lin_limit_refuted`, `C54_ghz_size_refuted`, `C54_linear_refuted`, `C54_loop_refuted`.

### C55 Simulating a circuit gives the state of the recorded branch, and its pattern gives the same (proved)

circ_simulate as a fold over the instructions on the backend of Simulator.v; einsum as the sum over all labels, proved equal to the action of the operator on the targets; invariant: the register is the normalised branch state of the unmeasured qubits; the pattern/circuit agreement combines C21 with the run theorem of C33.

Note: Circuit.simulate on the state-vector backend refines the branch semantics; agreement with the transpiled pattern up to a global phase. RZZ on one qubit twice (accepted by the API) is excluded.

Theorems: `C55_simulate`, `C55_unitary`, `C55_pattern_and_circuit`, `C55_transpile_without_swaps`, `C55_transpile`, `C55_transpile_unitary`.

### C56 Inspecting and comparing states (proved)

Inner products as finite sums; fidelity one by expanding the squared distance |t - <s,t> s|^2; einsum and tensordot through the rep/drep functions of C26/C55; partial trace by splitting the basis sum into traced and kept qubits, positivity by embedding the test vector; to_dict by injectivity of the bit strings.

Note: Refuted alongside: to_dict of a state without qubits uses the key '0'; DensityMatrix.expectation_single rescales self (in-place division after a shallow copy) when the trace is not one; Statevec.evolve accepts repeated targets and is then not norm-preserving.

Theorems: `C56_fidelity`, `C56_isclose`, `C56_unitary_invariance`, `C56_expectation_value`, `C56_to_dict`, `C56_to_prob_dict`, `C56_to_dict_no_qubit_refuted`, `C56_dm_fidelity`, `C56_ptrace`, `C56_ptrace_product`, `C56_dm_swap`, `C56_dm_cnot`, `C56_dm_expectation`, `C56_expectation_mutates_refuted`, `C56_evolve_repeated_refuted`.

### C57 Random objects are valid objects (proved)

The generator as a record of arbitrary draws; builders as folds that append accepted gates (invariant: the circuit is the list appended so far); C21 and C55 give transpilation and simulation; matrices by finite sums, completeness of the Kraus families from the specification of scipy's sqrtm and inv, resp. P^dagger P = 1 for Pauli tensors.

Note: Refuted alongside: use_rzz still puts CNOTs in the first entangling layer, depth 0 gives depth 1, an iterator of pairs is used by the first layer only and an iterator of parameters by RX only. A zero draw makes rand_pauli_channel_kraus fail (IndexError). rand_unit (dim > 1), sqrtm and inv of scipy are taken by their specification; the distributions are not modelled.

Theorems: `C57_rand_circuit`, `C57_rand_circuit_usable`, `C57_rand_circuit_small`, `C57_rand_gate`, `C57_rand_gate_refuted`, `C57_parameters_iterator_refuted`, `C57_rand_herm`, `C57_rand_dm`, `C57_rand_state_vector`, `C57_rand_channel_kraus`, `C57_pauli_ops`, `C57_rand_pauli_channel`.

### C58 Printed numbers and states can be read back (proved)

Strings are lists of tokens (Pretty.v); an independent reader gives their value as a vector over kets (PrettySpec.v). Fraction.limit_denominator is any closest reduced fraction, the decimal format any rounding of relative error u. Invariant of the square-free loops, chunk lemmas for each piece of syntax, chord bound for angles; the refutations use that (3+4i)/5 is not a root of unity (its powers modulo 5).

Note: rtol = 0 (the default) and maxden <= 1000. The parenthesis bugs and the square-root tolerance are proved as _refuted theorems; the readability theorems state the classes of amplitudes for which the printed state is right.

Theorems: `C58_recognize`, `C58_complex`, `C58_decimal_sum_refuted`, `C58_phase_sum_refuted`, `C58_tolerance_refuted`, `C58_state`, `C58_statevec`.

### C59 Printed patterns and flows can be read back (proved)

Strings are lists of code points (PrettyPat.v), literals and digits included; the float text is any text of digits, '.', 'e', '+', '-' with a '.' or 'e', the iteration order of a set any list of its elements. Unambiguity by cutting both strings at the same place: a maximal run of digits, the first bracket, space or backslash-comma (PrettyPatThm.v, PrettyPatCmd.v, PrettyPatFlow.v); induction on the joined lists. Documentation of limit and gate labels refuted by witnesses.

Note: Symbolic (parametric) angles and ApplyNoise commands are not modelled. C59_limit_refuted: the documented 'only first limit commands are printed' is false (limit-1 are, the last ones when printing right to left, and limit=0 prints commands and miscounts). C59_label_refuted: eight different Clifford gates share the label I^{1/3}, so the text does not determine the gate.

Theorems: `C59_command`, `C59_pattern`, `C59_direction`, `C59_limit`, `C59_angle`, `C59_fraction`, `C59_flow`, `C59_xzcorr`, `C59_layers`, `C59_limit_refuted`, `C59_label_refuted`.

### C60 Drawings show the flow (proved)

Real points, positions as dictionaries (Draw.v); loop invariants of the chain, row and column loops with injectivity of a causal flow (DrawThm.v); paths keep both ends through insertion, merging and removal, control points and Bezier curves by algebra and the binomial theorem (DrawGeo.v). The set iteration order is any; networkx layouts enter as arbitrary positions.

Note: Causal-flow layout, arrows and colours of flows and XZ-corrections, paths and curves; the networkx layouts of other objects are arbitrary positions; float rounding not modelled

Theorems: `C60_layout`, `C60_layer_texts`, `C60_flow_arrows`, `C60_xz_arrows`, `C60_near`, `C60_control_point`, `C60_curve`, `C60_drawing`, `C60_arrow`, `C60_self_loop`, `C60_shorten`, `C60_distance_refuted`.

### C61 Rewriting a circuit reaches every instruction and nothing else (proved)

Instructions with angles of any type (Visit.v), circuits as lists of addresses in a store and as values: simulation invariant (no address is shared, induction on the program). Renaming by the relation between assignments already used for SWAP elimination (Swaps.v); half turns of the rotation matrices; substitution by C26. Refuted parts by witnesses.

Note: The claims the code does not meet (renamings outside the register, active qubits of copies, J gates in is_parameterized) are stated as C61_rename_refuted, C61_active_refuted and C61_is_parameterized_refuted.

Theorems: `C61_fields`, `C61_fields_determine`, `C61_exceptions`, `C61_identity`, `C61_compose`, `C61_history`, `C61_copy`, `C61_in_place`, `C61_rename`, `C61_rename_builds`, `C61_rename_refuted`, `C61_active`, `C61_active_refuted`, `C61_whole_turns`, `C61_replace_parameter`, `C61_replace_parameters`, `C61_all_numbers`, `C61_is_parameterized`, `C61_is_parameterized_sound`, `C61_is_parameterized_refuted`.

### C62 Planes, axes, states and measurements agree on the Bloch sphere (proved)

The definitions of Fundamentals.v, Measure.v and Mat2.v are compared with each other through the density matrix: mean values are traces, a planar measurement operator is the density matrix of a planar state (PropBloch.v); finite case analysis on planes, axes, signs and the 24 gates, trigonometry for the angles.

Note: planes, axes, planar states, Pauli eigenstates, measurements and Clifford gates compared on the Bloch sphere; exact reals

Theorems: `C62_axes`, `C62_from_axes`, `C62_from_axes_error`, `C62_from_axes_sym`, `C62_polar`, `C62_density`, `C62_mean`, `C62_born`, `C62_measure_own`, `C62_eigenstate`, `C62_eigenstate_identity`, `C62_eigenstate_orthogonal`, `C62_eigenstate_error`, `C62_pauli_measurement`, `C62_iterate`, `C62_iterate_measurements`, `C62_clifford_plane`, `C62_clifford_compose`, `C62_clifford_axis`.

### C63 Rewriting the measurements of a pattern, and counting and connecting its nodes (proved)

Rewriting as a traversal that may raise (PropPatInfo.v); the rewritten commands are related one by one, equal measured operators give equal vectors up to phase, so branches agree; counting by induction on prefixes with the output list as the set of live nodes; parities of E commands through standardization (symmetric differences of edge sets). Documentation of space_list and connected_nodes refuted by witnesses.

Note: false of the code: space_list ignores the inputs, connected_nodes raises IndexError on graph states (witnesses proved)

Theorems: `C63_apply`, `C63_map`, `C63_map_runnable`, `C63_same_computation`, `C63_runnable`, `C63_blochify`, `C63_downcast`, `C63_infer`, `C63_infer_exact`, `C63_present`, `C63_space_list`, `C63_space_list_refuted`, `C63_max_space`, `C63_graph`, `C63_isolated`, `C63_connected`, `C63_connected_error`, `C63_connected_refuted`, `C63_corrections`.

### C64 Comparing open graphs and mapping their measurements (proved)

Comparison and mapping of open graphs (PropOGEq.v) against a specification that ignores storage order (membership, adjacency, dictionary lookup); equal dictionaries with distinct keys are permutations, edges are compared after normalisation, so the operation lists that define the linear map (OGMap.v) are permutations of commuting operations; mapping goes through the validation of the constructor. Simplified: angles are reals (the code compares with == when one of them is not a float), graphs carry no attributes, inputs and outputs are sequences of one type.

Note: complete for float angles; is_equal_structurally, isclose, map, to_bloch, downcast_bloch, infer_pauli_measurements

Theorems: `C64_structural`, `C64_structural_equivalence`, `C64_isclose`, `C64_isclose_sym`, `C64_exact`, `C64_exact_map`, `C64_map`, `C64_map_same_computation`, `C64_to_bloch`, `C64_downcast`, `C64_infer`, `C64_infer_exact`.

### C65 Arrays accepted as operators and lists accepted as channels (proved)

Array shapes as lists of binary integers and the bit operations of Python on non-negative integers as those of N (PropKraus.v); powers of two characterised by their leading bit; the constructor is compared with a specification that quantifies over entries, and with the channels of Density.v. Simplified: entries are exact complex numbers and the eigenvalues of is_psd are a parameter (LAPACK). Documentation of _ilog2 refuted: it computes the ceiling.

Note: complete; eigenvalues of is_psd are a parameter; the docstring of _ilog2 (floor) is false off powers of two (C65_ilog2_floor_refuted)

Theorems: `C65_is_qubitop`, `C65_ilog2`, `C65_ilog2_floor`, `C65_ilog2_floor_refuted`, `C65_kraus_data`, `C65_channel`, `C65_channel_exact`, `C65_channel_model`, `C65_is_hermitian`, `C65_is_unit_trace`, `C65_is_psd`.

### C66 The state-vector simulator stays inside its buffer, and its capacity is not observable (proved)

Checked versions of the kernels of Statevec.v on a buffer of given length, where an access outside is None (PropMem.v); loop invariants for the running index of the in-place kernels show they are equal to the unbounded kernels; the methods refine the unbounded model whatever the uninitialised memory contains, and histories follow by induction. Simplified: the copy constructor has no nqubit argument, the index checks at the head of the methods are hypotheses, parallel iterations are atomic, and machine integers do not overflow.

Note: complete

Theorems: `C66_tensor_in_bounds`, `C66_add_default_in_bounds`, `C66_swap_in_bounds`, `C66_entangle_in_bounds`, `C66_evolve_in_bounds`, `C66_project_in_bounds`, `C66_ensure_capacity`, `C66_constructor`, `C66_copy`, `C66_add_plus`, `C66_tensor`, `C66_methods`, `C66_history`, `C66_no_reallocation`, `C66_swap_signed`, `C66_swap_unchecked_refuted`.


## Print Assumptions, theorem by theorem

F = functional_extensionality_dep, D = ClassicalDedekindReals.sig_forall_dec, N = ClassicalDedekindReals.sig_not_dec, `-` = closed under the global context.

```

C01_standardize_preserves_computation         DFN
C01_standardize_total                         DFN
C01_standardize_total_without_clifford        DFN
C02_standard_order                            DFN
C03_standardize_runnable                      DFN
C04_check_runnability_exact                   -
C05_container                                 -
C05_history                                   -
C05_reorder                                   -
C06_direct                                    DFN
C06_direct_removes_signals                    DF
C06_mc                                        DFN
C06_rejects                                   DF
C06_direct_vice_versa_refuted                 DFN
C07_mul                                       DFN
C07_conj                                      DFN
C07_unitary                                   DFN
C07_distinct                                  DFN
C07_hsz                                       DFN
C07_qasm3                                     DFN
C07_measure                                   DFN
C07_named                                     DFN
C08_commute_domains                           DFN
C09_measurement_clifford                      DFN
C09_to_bloch                                  DFN
C09_vector                                    DFN
C10_describe_measurement                      DFN
C10_projector                                 DFN
C11_pauli_product                             DF
C11_pauli_neg                                 DF
C11_pauli_scale                               DF
C11_unit_group                                DF
C11_sign                                      DF
C11_axes                                      DF
C12_remove_useless_domains                    DFN
C12_single_qubit_domains                      DFN
C12_single_qubit_domains_total                -
C13_cut                                       DFN
C13_perform_pauli_pushing                     DFN
C14_topological_generations                   -
C14_layers_unique                             -
C15_finder_sound_complete                     -
C15_found_checks                              -
C15_maximally_delayed                         -
C15_pattern                                   DFN
C16_elimination                               -
C16_rank                                      -
C16_right_inverse                             -
C16_right_inverse_full_rank                   -
C16_null_space                                -
C16_mat_mul                                   -
C16_solve                                     -
C17_pauliflow_sound_complete                  -
C17_gflow_sound_complete                      -
C17_found_checks                              -
C17_minimal_depth                             -
C17_pattern                                   DFN
C17_maximally_delayed_refuted                 D
C17_self_loop_refuted                         -
C18_pauli_flow_deterministic                  DFN
C18_gflow_deterministic                       DFN
C18_causal_flow_deterministic                 DFN
C18_equal_probability                         DFN
C18_self_loop_refuted                         D
C19_from_mapping_decides                      -
C19_check_well_formed_decides                 -
C19_pattern                                   -
C19_unknown_node_refuted                      D
C19_empty_order_refuted                       -
C20_gates                                     DFN
C20_decomposition                             DFN
C20_circuit                                   DFN
C20_total                                     DF
C21_transpile_without_swaps                   DFN
C21_transpile                                 DFN
C21_transpile_unitary                         DFN
C21_rzz_same_qubit_refuted                    DF
C21_identity_refuted                          DF
C22_swaps                                     DFN
C22_output_nodes_partial                      DFN
C22_output_nodes_keyerror                     -
C22_output_nodes_refuted                      -
C22_classical_outputs_refuted                 -
C23_dropped                                   DF
C23_refuted                                   DFN
C23_no_identity_gate_partial                  DFN
C24_minimize_space_preserves                  DFN
C24_minimize_space_default                    DFN
C24_space_optimal                             DFN
C24_causal_order_optimal                      DF
C24_parallelize_preserves                     DFN
C24_parallelize_depth                         -
C24_parallelize_no_outputs_refuted            DF
C24_minimize_space_states_refuted             DF
C25_compose                                   DFN
C25_rejects                                   -
C25_empty_self_refuted                        -
C26_refuted                                   DF
C26_arithmetic_partial                        DF
C26_add_exact                                 DF
C26_with_parameter                            DF
C26_with_parameters                           DF
C26_substitution_total                        DF
C26_subst_commutes_partial                    DF
C27_trace_preserving                          DF
C27_positive                                  DF
C27_apply_succeeds                            DFN
C27_complete                                  DFN
C27_dephasing                                 DFN
C27_depolarising                              DFN
C27_amplitude_damping                         DFN
C27_two_qubit_depolarising                    DFN
C27_two_qubit_depolarising_tensor             DFN
C27_two_qubit_amplitude_damping               DFN
C27_pauli_channel_refuted                     DFN
C27_pauli_channel_wrong_action_refuted        DFN
C28_index_convention                          -
C28_tensor                                    DF
C28_add_plus                                  DFN
C28_swap                                      F
C28_entangle                                  DF
C28_evolve_single                             DF
C28_expectation                               DF
C28_project                                   DFN
C28_permute                                   -
C29_bijection                                 -
C29_operations                                -
C29_duplicate_extend_refuted                  -
C30_tableau_round                             -
C30_tableau_round_back                        -
C30_tableau_meaning                           DF
C30_str_round                                 -
C30_from_str                                  -
C30_out_of_range_refuted                      -
C31_updates                                   DFN
C31_synthesis                                 DFN
C31_isometry                                  -
C31_empty_refuted                             D
C32_exp_meaning                               DFN
C32_ladder                                    DFN
C32_pass                                      DFN
C32_er_to_circuit                             DFN
C32_incompatible                              DF
C32_missing                                   DF
C32_docstring_refuted                         DFN
C33_fixed                                     DF
C33_const                                     -
C33_random                                    DF
C33_probabilities                             DFN
C33_certain_zero                              DF
C33_impossible_outcome_refuted                DF
C34_only_inserts                              -
C34_commands_kept                             -
C34_error                                     -
C34_components                                -
C34_input_components                          -
C34_live                                      -
C34_confuse                                   DF
C34_confuse_extreme                           DF
C34_noiseless                                 -
C35_to_opengraph                              DFN
C35_remove_local_clifford                     DFN
C35_identity_refuted                          -
C36_gates                                     DFN
C36_gate_s_partial                            DFN
C36_gate_s_refuted                            DFN
C36_equivalent_graphs                         DFN
C36_fill_node                                 DFN
C36_measure                                   DFN
C36_measure_z_choice_refuted                  DFN
C36_extract_vops                              DFN
C36_apply_vops_partial                        DFN
C36_apply_vops_identity_refuted               -
C36_apply_vops_refuted                        DFN
C37_standardized                              DFN
C37_all_removed                               DFN
C37_remove_pauli_measurements                 DFN
C37_isolated_refuted                          DFN
C37_preparations_refuted                      DFN
C38_simulation                                DFN
C38_fixed_branch                              DFN
C39_construct                                 -
C39_neighbors                                 -
C39_odd_neighbors                             -
C39_unknown_node                              -
C39_compose                                   DF
C39_sequential                                DFN
C39_empty_refuted                             DF
C39_common_edge_refuted                       DFN
C39_clifford_refuted                          DFN
C40_normalize                                 DFN
C40_normalize_symbolic                        -
C40_integers_refuted                          DF
C40_clifford_range                            DF
C40_to_pauli_sound                            DFN
C40_to_pauli_complete                         DFN
C40_to_pauli_exact                            DFN
C40_to_pauli_or_bloch                         DFN
C40_isclose                                   DF
C40_neg                                       DFN
C41_inferred                                  DFN
C41_accepts                                   DFN
C41_nqubit_refuted                            DFN
C41_nqubit_zero_vector                        DFN
C42_pauli_flow_check_decides                  -
C42_gflow_check_decides                       -
C42_causal_flow_check_decides                 -
C42_flow_hierarchy                            -
C43_is_focused_decides                        -
C43_found_focused                             -
C44_to_pattern                                DFN
C45_round_trip                                DFN
C46_to_pauliflow                              -
C46_pauliflow_round_trip                      -
C46_to_causalflow                             -
C46_to_gflow                                  -
C46_pattern_pauliflow                         DFN
C46_chain_causalflow                          DFN
C46_chain_gflow                               DFN
C46_causalflow_round_trip                     -
C46_gflow_round_trip                          -
C46_input_x_refuted                           DFN
C46_missing_z_refuted                         DFN
C47_z_axis                                    DFN
C47_j_to_rzh                                  DFN
C48_simulation                                DFN
C48_probabilities                             DFN
C48_agrees                                    DFN
C48_zero_noise                                DFN
C48_self_edge_refuted                         DFN
C49_node_mapping                              -
C49_reindex                                   DFN
C50_extract_circuit                           DFN
C50_pattern                                   DFN
C50_og_to_circuit                             DFN
C50_errors                                    DF
C50_minus_input_refuted                       DFN
C51_pattern                                   DFN
C51_exact                                     DFN
C51_errors                                    DFN
C52_circuit                                   DFN
C52_exact                                     DFN
C52_direct                                    DFN
C52_rzz_refuted                               DFN
C53_run                                       DFN
C53_statevector                               DFN
C53_fixed_branch                              DFN
C53_agrees                                    DFN
C53_other_input                               DFN
C53_draws                                     DFN
C53_probability_refuted                       DFN
C54_partition                                 -
C54_terminates                                -
C54_fusion_nodes                              -
C54_equal                                     -
C54_ghz_limit_refuted                         -
C54_lin_limit_refuted                         -
C54_ghz_size_refuted                          -
C54_linear_refuted                            -
C54_loop_refuted                              -
C55_simulate                                  DFN
C55_unitary                                   DFN
C55_pattern_and_circuit                       DFN
C55_transpile_without_swaps                   DFN
C55_transpile                                 DFN
C55_transpile_unitary                         DFN
C56_fidelity                                  DFN
C56_isclose                                   DFN
C56_unitary_invariance                        DFN
C56_expectation_value                         DFN
C56_to_dict                                   DFN
C56_to_prob_dict                              DFN
C56_to_dict_no_qubit_refuted                  DFN
C56_dm_fidelity                               DFN
C56_ptrace                                    DF
C56_ptrace_product                            DF
C56_dm_swap                                   DF
C56_dm_cnot                                   DFN
C56_dm_expectation                            DF
C56_expectation_mutates_refuted               DF
C56_evolve_repeated_refuted                   DF
C57_rand_circuit                              DF
C57_rand_circuit_usable                       DFN
C57_rand_circuit_small                        DF
C57_rand_gate                                 D
C57_rand_gate_refuted                         D
C57_parameters_iterator_refuted               DF
C57_rand_herm                                 DF
C57_rand_dm                                   DF
C57_rand_state_vector                         DFN
C57_rand_channel_kraus                        DFN
C57_pauli_ops                                 D
C57_rand_pauli_channel                        DFN
C58_recognize                                 DFN
C58_complex                                   DFN
C58_decimal_sum_refuted                       DFN
C58_phase_sum_refuted                         DFN
C58_tolerance_refuted                         DFN
C58_state                                     DFN
C58_statevec                                  DFN
C59_command                                   DFN
C59_pattern                                   DFN
C59_direction                                 DFN
C59_limit                                     DFN
C59_angle                                     DFN
C59_fraction                                  DFN
C59_flow                                      -
C59_xzcorr                                    -
C59_layers                                    -
C59_limit_refuted                             DFN
C59_label_refuted                             DFN
C60_layout                                    -
C60_layer_texts                               D
C60_flow_arrows                               -
C60_xz_arrows                                 -
C60_near                                      DFN
C60_control_point                             DFN
C60_curve                                     DF
C60_drawing                                   DFN
C60_arrow                                     DFN
C60_self_loop                                 DFN
C60_shorten                                   DFN
C60_distance_refuted                          DFN
C61_fields                                    -
C61_fields_determine                          -
C61_exceptions                                -
C61_identity                                  -
C61_compose                                   -
C61_history                                   -
C61_copy                                      -
C61_in_place                                  -
C61_rename                                    DFN
C61_rename_builds                             -
C61_rename_refuted                            -
C61_active                                    -
C61_active_refuted                            -
C61_whole_turns                               DFN
C61_replace_parameter                         DF
C61_replace_parameters                        DF
C61_all_numbers                               DF
C61_is_parameterized                          -
C61_is_parameterized_sound                    -
C61_is_parameterized_refuted                  D
C62_axes                                      -
C62_from_axes                                 -
C62_from_axes_error                           -
C62_from_axes_sym                             -
C62_polar                                     DFN
C62_density                                   DFN
C62_mean                                      DFN
C62_born                                      DFN
C62_measure_own                               DFN
C62_eigenstate                                DFN
C62_eigenstate_identity                       DFN
C62_eigenstate_orthogonal                     DFN
C62_eigenstate_error                          DF
C62_pauli_measurement                         DFN
C62_iterate                                   -
C62_iterate_measurements                      -
C62_clifford_plane                            -
C62_clifford_compose                          -
C62_clifford_axis                             DFN
C63_apply                                     -
C63_map                                       -
C63_map_runnable                              -
C63_same_computation                          DFN
C63_runnable                                  -
C63_blochify                                  DFN
C63_downcast                                  -
C63_infer                                     DFN
C63_infer_exact                               DFN
C63_present                                   -
C63_space_list                                -
C63_space_list_refuted                        -
C63_max_space                                 -
C63_graph                                     DF
C63_isolated                                  DF
C63_connected                                 DFN
C63_connected_error                           DF
C63_connected_refuted                         DF
C63_corrections                               -
C64_structural                                -
C64_structural_equivalence                    -
C64_isclose                                   DF
C64_isclose_sym                               DF
C64_exact                                     DF
C64_exact_map                                 DFN
C64_map                                       -
C64_map_same_computation                      DFN
C64_to_bloch                                  DFN
C64_downcast                                  DF
C64_infer                                     DFN
C64_infer_exact                               DFN
C65_is_qubitop                                -
C65_ilog2                                     -
C65_ilog2_floor                               -
C65_ilog2_floor_refuted                       -
C65_kraus_data                                -
C65_channel                                   DFN
C65_channel_exact                             DFN
C65_channel_model                             DFN
C65_is_hermitian                              DFN
C65_is_unit_trace                             DFN
C65_is_psd                                    DFN
C66_tensor_in_bounds                          D
C66_add_default_in_bounds                     DFN
C66_swap_in_bounds                            -
C66_entangle_in_bounds                        D
C66_evolve_in_bounds                          D
C66_project_in_bounds                         DFN
C66_ensure_capacity                           -
C66_constructor                               DFN
C66_copy                                      -
C66_add_plus                                  DFN
C66_tensor                                    DF
C66_methods                                   DFN
C66_history                                   DFN
C66_no_reallocation                           DFN
C66_swap_signed                               -
C66_swap_unchecked_refuted                    -
```
