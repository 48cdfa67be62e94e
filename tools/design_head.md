# Formal model of TeamGraphix/graphix in Coq 8.16.1

## Approach

* **The model** is a set of total computable Gallina functions that follow the
  Python function by function and branch by branch. Every definition cites the
  file and lines it models. Exceptions are values (`res A := Ok a | Err e`, with
  one constructor per Python exception class that the modelled code raises).
  Python loops over a `set` take their iteration order from a parameter
  `it : iter` of which only `iter_ok` (it lists exactly the elements, once) is
  assumed, so theorems hold for every hash order; loops that the Python runs to a
  fixpoint take fuel, and fuel adequacy is proved (no theorem has a fuel
  hypothesis).
* **Data.** Nodes are `nat`; finite sets are `nset` (canonical bit sets, so
  equality of sets is Leibniz equality); dicts are association lists in
  insertion order; floats are idealised as real numbers, complex numbers as pairs
  of reals; angles are in units of pi.
* **Quantum meaning** (`QState.v`, independent of the code). A state is an
  amplitude function `(nat -> bool) -> C`; elementary operations (prepare,
  CZ, 1-qubit matrix, projection on a vector) are linear maps on such functions.
  A *branch* of a pattern is an outcome assignment `nat -> bool`;
  `den (seq_ops o l)` is the (unnormalised) linear map of the command list `l` in
  branch `o`. `≈` is equality of maps up to one unit scalar that does not depend
  on the input. Equivalence statements are branch by branch, and are stated for
  all input states that do not involve the nodes the pattern prepares.
* **Specifications** are stated with matrices, branch maps, graph axioms or
  list/set vocabulary, not with the helpers of the model. Property theorems are
  in `theories/Prop*.v`, each followed by `Print Assumptions` and by `Example`s
  with concrete non-trivial instances that meet its hypotheses.
* **Defects.** Where the code does not satisfy the English property, the property
  is proved under the weakest hypothesis found, and a theorem `Cnn_..._refuted`
  exhibits a concrete counterexample in the model. `_partial` marks theorems that
  cover part of a property.
* **Mutation testing**: `seeded/LOG.jsonl` lists edits of the model that imitate
  realistic bugs and the theorems that then fail.

## Trusted base

* Coq 8.16.1's kernel (with `vm_compute`, used on finite tables).
* Standard-library axioms, and nothing else: `functional_extensionality_dep`,
  `ClassicalDedekindReals.sig_forall_dec`, `ClassicalDedekindReals.sig_not_dec`
  (the last two come with `Reals`). The table at the end of this file gives the
  output of `Print Assumptions` for every property theorem. No axiom, functor,
  module type, `Admitted` or unsafe flag is used. `Section` variables are all
  discharged.
* The hand translation from Python to Gallina, documented on each definition, and
  the semantics of the Python built-ins, of networkx, numpy and numba that the
  modelled functions call (modelled by their documented results).
* Idealisations: exact real arithmetic instead of floating point (tolerances of
  the code are explicit parameters where they decide something); unbounded
  integers; no concurrency except the parallel loops of the state-vector kernels,
  whose iterations run in an arbitrary order.

## What is modelled

| file of /repo/graphix | modelled in |
|---|---|
| command.py, pattern.py (container, runnability, standardize, shift_signals, Pauli pushing, removal passes, reindex, compose, extraction, max_space, minimize_space, parallelize, apply, node counts and neighbours) | Pattern, Standardize, Shift, Cleanup, Push, Reindex, Space*, Extract, Recon, RemovePauli, LCFree, PropPatInfo |
| optimization.py (StandardizedPattern and all passes) | Standardize, Shift, Cleanup, Push, Extract, LCFree |
| remove_pauli_measurements.py | Push, RemovePauli* , RunBranch |
| clifford.py, _db.py, pauli.py, fundamentals.py, states.py (basic states), measurements.py | CliffordDb, Clifford, Fundamentals, Measure, PropAngle, PropBloch |
| opengraph.py | OpenGraph, Compose, OGMap |
| flow/core.py, flow/_partial_order.py, flow/_find_cflow.py, flow/_find_gpflow.py | Flow, FlowSpec, FlowWF, FlowPat, FlowDet, TopGen, Corr, CFlow, GP*, Focus, Recon |
| _linalg.py | Linalg, LinalgThm |
| transpiler.py, instruction.py, ops.py (matrices) | Circuit, Swaps, Transpile*, PropRewrite, CircSim (simulate) |
| space_minimization.py | SpaceMin, SpaceHeur |
| circ_ext/compilation.py, circ_ext/extraction.py (Pauli strings, Clifford maps, ladders, synthesis) | PauliStr, PauliOp, Berg, Ladder, FlowCirc (extraction from a flow), FlowCircSem/Str/Load/Map/Ext/Fin (proofs) |
| graphsim.py | GState, GraphSim* |
| sim/statevec.py, sim/base_backend.py (NodeIndex, backend), simulator.py, branch_selector.py | Statevec, NodeIndex, Simulator, CircSim (evolve, swap), Inspect (fidelity, isclose, to_dict, expectation_value) |
| sim/density_matrix.py, channels.py, noise_models/* | Density, DMSim, DMRun, Noise, Inspect (ptrace, fidelity, swap, cnot) |
| sim/tensornet.py (TensorNetworkBackend, MBQCTensorNet; quimb by its specification, expectation values not modelled) | TensorNet, TensorThm, TensorGraph, TensorRun |
| extraction.py (fusion networks) | Fusion, FusionThm |
| qasm3_exporter.py, pretty_print.py (angle_to_str) | Qasm, QasmThm, QasmCirc |
| pretty_print.py (numbers and state vectors, as tokens) | Pretty, PrettySpec |
| pretty_print.py (commands, patterns, angles, flows, corrections, as code points) | PrettyPat |
| transpiler.py, instruction.py (visitors, apply_angle, parameters; instruction objects in a store) | Visit |
| visualization.py (causal-flow layout, arrows, colours, paths and curves; not the networkx layouts nor matplotlib) | Draw |
| parameter.py (affine expressions) | Param |
| random_objects.py (draws as parameters, distributions not modelled; rand_unit, sqrtm, inv by specification) | RandObj |

Not modelled: pretty_print.py (matrices, symbolic angles, column alignment), device interfaces,
logging/warnings, deprecated aliases, `Circuit.simulate_statevector`'s Monte-Carlo
layer beyond branch selection, parameterised (symbolic) angles outside
parameter.py, plugin subclasses of BaseN/BaseM, in-place aliasing of Python
objects outside Visit (functions are modelled by their return value; in-place variants by the
new contents of `self`).
