C01 Model StandardizedPattern.from_pattern as the loop over commands with its dictionaries (Standardize.v); invariant: branch map of the commands read so far = branch map of the standard form (commutation lemmas of Layer.v), by induction on the prefix.
C02 Shape of std_cmds read off the construction; stated on positions of command kinds.
C03 Same invariant carries runnability of the standard form (domains refer to measured nodes).
C04 check_runnability's state (active, measured) characterised by the prefix; stated against a prefix-quantified definition `runnable` of section 2 of the docs.
C05 Induction over arbitrary histories of container operations.
C06 Both signal-shifting methods; the branch map with shifted outcomes is related to the original by the returned dictionary; induction on the sequence with the pending-signal dictionary as invariant.
C07 Tables transcribed from _db.py; matrices in Z[i] times 1/sqrt n, compared by computation and transported to C by a soundness lemma.
C08 Case analysis of H/S/Z words, XZ-conjugation lemmas, parity of symmetric differences.
C09 Projector of the measurement conjugated by the Clifford, for all real angles and planes; trigonometry.
C10 Vector of the described measurement = X^s Z^t applied to the vector, up to phase.
C11 Matrix identities over all Paulis/signs.
C12 The three domain clean-up passes; rewriting relation preserved command by command.
C13 Cut loop invariant (commuted measurements, expanded domains), bijection of branches by the shifted-signal dictionary.
C14 Kahn's algorithm with arbitrary set order; layers characterised by longest paths; fuel adequacy.
C15 Layer-by-layer causal flow search; soundness, completeness and maximal delay by induction on layers.
C16 Bit matrices as lists of rows; elimination invariants; row space and null space specifications by linear combinations over GF(2).
C17 Algebraic Pauli-flow algorithm: order-demand matrices, reduction to linear systems; soundness and completeness w.r.t. the axioms of Pauli flow (Browne et al.), by the loop invariant on solved columns and a focusing argument.
C18 Stabiliser argument: corrections of a node cancel its outcome; induction along the measurement order (FlowDet.v, FlowSem.v).
C19 from_measured_nodes_mapping, check_well_formed, order compatibility, on the model of XZCorrections.
C20 Each gate's J/CZ decomposition equals the gate's matrix up to a phase; circuits by induction; recursion depth adequate.
C21 Whole transpiler: J/CZ steps build a graph with a causal flow; the pattern of the flow implements the circuit; composed with C24 for the space-optimal order.
C22 transpile_swaps as a permutation invariant; failing cases refuted.
C23 Coverage of instructions by the decomposition; counterexample for the I gate.
C24 Measurement orders produced by the three heuristics; delayed preparation is shown to preserve every branch; max_space against a specification of live nodes.
C25 compose = relabelling + concatenation; sequential composition of branch maps through the plugged nodes.
C26 Affine expressions as coefficient dictionaries; substitution and evaluation; cancellation bug characterised exactly.
C27 Kraus operators of each constructor; completeness and closed-form action over all probabilities; density matrices as functions.
C28 Array kernels index by index, with arbitrary schedule of the parallel loop; result equals the operator on the amplitude function.
C29 Invariant of the two maps of NodeIndex over all histories.
C30 Pauli strings, symplectic rows and text; operators as matrices on n qubits.
C31 Row updates are conjugations; the van den Berg synthesis loop invariant.
C32 CNOT ladder plus basis change = exp(i a P) (cos + i sin P), DAG pass schedules commuting rotations.
C33 Every selector's outcome and probability; sequences of calls.
C34 Noise-model transpilation returns the original commands as a subsequence plus noise commands; counts and positions.
C35 Gadget of each of the 24 Cliffords (teleportation along a line, induction on its length); loop invariant with a bijection of labels, the branch map relabelled, and fresh labels.
C36 Decorated graph states (signs, loops, hollow nodes) denote states; each rewriting is a stabiliser/local-complementation identity.
C37 Worklist algorithm with arbitrary set order: state invariant relating the annotated graph to the pushed pattern in every branch; termination measure; reading back the standard pattern.
C38 Simulation loop on the array model (C28, C29): the amplitudes of the final state are the branch map of the outcomes drawn, normalised.
C39 og_make's checks against the definition; composition as union of graphs; sequential semantics of graph maps.
C40 normalize_angle and measurement-angle helpers over the reals.
C41 State-vector constructor's validation for each kind of data.
C42 Each checker of flow/core.py decides its axioms (iff).
C43 Focused sets by odd neighbourhoods; the finder's output is focused.
C44 C15 + C17 + C18 combined for OpenGraph.to_pattern.
C45 Reading XZ-corrections off a pattern and generating it back.
C46 Flow reconstruction from corrections and patterns, with the error cases.
C47 Circuit rewriting passes (Z measurements, J gates) keep the branch maps.
C48 Density-matrix backend: the run is the sum over Kraus/branches; refines the pure-state semantics without noise.
C49 node_mapping's loop invariant; reindex keeps branch maps up to relabelling.
C50 Extraction model (FlowCirc.v); absorption of Pauli products by the measurements at angle 0, one exponential per rotated measurement, injectivity of the map of a graph with flow, Schur lemma for the Clifford part, synthesis theorems C31/C32.
C51 The printed program as a syntax tree, with a semantics of the emitted OpenQASM 3 fragment where measured qubits stay in the register; invariant over the commands: the state of the program is the state of the pattern masked by the observed outcomes.
C52 Same semantics; one instruction at a time, after the two rewriting passes of C47; RZZ refuted by the program printed (crz).
C53 Networks as lists of tensors with named indices, contraction as a sum over all index values; invariant: the network, with the dangling indices of the live nodes left open, is a scalar times the branch state; prepare_graph_state proved to be the graph state; the SVD split of CZ is any pair of tensors that contracts to CZ.
C54 Graphs as ordered adjacency dicts; invariant: remaining edges and cluster edges partition the edges of the graph and the counter is their number; the main loop with explicit fuel (None = still running), termination by the counter, non-termination by a fixed point of the loop body.
C55 circ_simulate as a fold over the instructions on the backend of Simulator.v; einsum as the sum over all labels, proved equal to the action of the operator on the targets; invariant: the register is the normalised branch state of the unmeasured qubits; the pattern/circuit agreement combines C21 with the run theorem of C33.
C56 Inner products as finite sums; fidelity one by expanding the squared distance |t - <s,t> s|^2; einsum and tensordot through the rep/drep functions of C26/C55; partial trace by splitting the basis sum into traced and kept qubits, positivity by embedding the test vector; to_dict by injectivity of the bit strings.
C57 The generator as a record of arbitrary draws; builders as folds that append accepted gates (invariant: the circuit is the list appended so far); C21 and C55 give transpilation and simulation; matrices by finite sums, completeness of the Kraus families from the specification of scipy's sqrtm and inv, resp. P^dagger P = 1 for Pauli tensors.
C58 Strings are lists of tokens (Pretty.v); an independent reader gives their value as a vector over kets (PrettySpec.v). Fraction.limit_denominator is any closest reduced fraction, the decimal format any rounding of relative error u. Invariant of the square-free loops, chunk lemmas for each piece of syntax, chord bound for angles; the refutations use that (3+4i)/5 is not a root of unity (its powers modulo 5).
C59 Strings are lists of code points (PrettyPat.v), literals and digits included; the float text is any text of digits, '.', 'e', '+', '-' with a '.' or 'e', the iteration order of a set any list of its elements. Unambiguity by cutting both strings at the same place: a maximal run of digits, the first bracket, space or backslash-comma (PrettyPatThm.v, PrettyPatCmd.v, PrettyPatFlow.v); induction on the joined lists. Documentation of limit and gate labels refuted by witnesses.
C60 Real points, positions as dictionaries (Draw.v); loop invariants of the chain, row and column loops with injectivity of a causal flow (DrawThm.v); paths keep both ends through insertion, merging and removal, control points and Bezier curves by algebra and the binomial theorem (DrawGeo.v). The set iteration order is any; networkx layouts enter as arbitrary positions.
C61 Instructions with angles of any type (Visit.v), circuits as lists of addresses in a store and as values: simulation invariant (no address is shared, induction on the program). Renaming by the relation between assignments already used for SWAP elimination (Swaps.v); half turns of the rotation matrices; substitution by C26. Refuted parts by witnesses.
C62 The definitions of Fundamentals.v, Measure.v and Mat2.v are compared with each other through the density matrix: mean values are traces, a planar measurement operator is the density matrix of a planar state (PropBloch.v); finite case analysis on planes, axes, signs and the 24 gates, trigonometry for the angles.
C63 Rewriting as a traversal that may raise (PropPatInfo.v); the rewritten commands are related one by one, equal measured operators give equal vectors up to phase, so branches agree; counting by induction on prefixes with the output list as the set of live nodes; parities of E commands through standardization (symmetric differences of edge sets). Documentation of space_list and connected_nodes refuted by witnesses.
C64 Comparison and mapping of open graphs (PropOGEq.v) against a specification that ignores storage order (membership, adjacency, dictionary lookup); equal dictionaries with distinct keys are permutations, edges are compared after normalisation, so the operation lists that define the linear map (OGMap.v) are permutations of commuting operations; mapping goes through the validation of the constructor. Simplified: angles are reals (the code compares with == when one of them is not a float), graphs carry no attributes, inputs and outputs are sequences of one type.
C65 Array shapes as lists of binary integers and the bit operations of Python on non-negative integers as those of N (PropKraus.v); powers of two characterised by their leading bit; the constructor is compared with a specification that quantifies over entries, and with the channels of Density.v. Simplified: entries are exact complex numbers and the eigenvalues of is_psd are a parameter (LAPACK). Documentation of _ilog2 refuted: it computes the ceiling.
C66 Checked versions of the kernels of Statevec.v on a buffer of given length, where an access outside is None (PropMem.v); loop invariants for the running index of the in-place kernels show they are equal to the unbounded kernels; the methods refine the unbounded model whatever the uninitialised memory contains, and histories follow by induction. Simplified: the copy constructor has no nqubit argument, the index checks at the head of the methods are hypotheses, parallel iterations are atomic, and machine integers do not overflow.
