{"id": "C01", "title": "Gate application is the textbook action", "statement": "apply_operator(state, U, target, control) on a state vector returns an array of the same shape whose amplitude at bitstring x is: psi[x] when some control bit of x is 0, and otherwise the sum over k-bit strings y of U[x restricted to target, y] * psi[x with target bits replaced by y]. The order of the qubits in target selects the bits of the row/column index of U, most significant first.", "quantifier": "every number of qubits, every complex state, every 2^k x 2^k matrix, every tuple of distinct target and control qubits in range, in any order", "why_tests_cant": "the axis bookkeeping (tensordot + moveaxis) has a different permutation for every n, k and order of qubits; tests sample a handful", "anchors": ["horqrux/apply.py:apply_operator(Array)", "horqrux/utils/operator_utils.py:_controlled", "horqrux/utils/operator_utils.py:is_controlled"]}
{"id": "C02", "title": "Out-of-contract gate applications raise", "statement": "apply_operator on a state vector raises, and never returns an array, when a target or control qubit is out of range, is used twice, or when the size of the matrix does not match the number of target qubits. It also raises, on state vectors and density matrices, when the controls mix qubits and None.", "quantifier": "every state, matrix and qubit tuple violating the contract", "why_tests_cant": "a silent wrong answer is possible for any of infinitely many malformed inputs", "anchors": ["horqrux/apply.py:apply_operator(Array)"]}
{"id": "C03", "title": "Gate application is linear in the state", "statement": "apply_operator(a*psi + b*phi, U, t, c) = a*apply_operator(psi,U,t,c) + b*apply_operator(phi,U,t,c).", "quantifier": "all complex a, b, all states, matrices, targets and controls", "why_tests_cant": "universally quantified algebraic law over complex vectors", "anchors": ["horqrux/apply.py:apply_operator(Array)"]}
{"id": "C04", "title": "Unitary circuits preserve norms and inner products", "statement": "Running any circuit whose gate matrices are unitary leaves the inner product of any two states, hence the norm of any state, unchanged.", "quantifier": "every circuit length, number of qubits, gate placement and pair of states", "why_tests_cant": "an invariant over all circuits; tests check norms of a few random states", "anchors": ["horqrux/apply.py:apply_gates(Array)", "horqrux/utils/operator_utils.py:inner"]}
{"id": "C05", "title": "The dagger operation undoes a gate", "statement": "apply_gates(apply_gates(psi, g, values), g, values, DAGGER) = psi for every gate constructor of the library that can be applied (I,X,Y,Z,H,S,T,SWAP,RX,RY,RZ,PHASE), controlled or not.", "quantifier": "every gate, every real angle, every target/control placement, every state", "why_tests_cant": "must hold for every real angle and every state", "anchors": ["horqrux/primitives/primitive.py:Primitive.dagger", "horqrux/utils/operator_utils.py:_dagger", "horqrux/primitives/parametric.py:Parametric._unitary", "horqrux/apply.py:apply_gates"]}
{"id": "C06", "title": "Density matrices evolve as U rho U^dagger", "statement": "apply_operator(DensityMatrix(rho), U, target, control) returns the density matrix E rho E^dagger, where E is the textbook (controlled) action of U on the listed qubits, whatever order Python chooses to iterate the set of untouched qubits in.", "quantifier": "every n, every rho, every matrix U, every tuple of distinct qubits, every set iteration order", "why_tests_cant": "permutation bookkeeping for all n and all qubit orders; set iteration order is implementation defined", "anchors": ["horqrux/apply.py:apply_operator(DensityMatrix)", "horqrux/utils/operator_utils.py:permute_basis", "horqrux/utils/operator_utils.py:_dagger"]}
{"id": "C07", "title": "State-vector and density-matrix simulation agree", "statement": "For every noiseless list of gates, apply_gates(density_mat(psi), gates, values) is density_mat(apply_gates(psi, gates, values)).", "quantifier": "every state, every nonempty noiseless gate list, every parameter dictionary", "why_tests_cant": "relates two different code paths on all circuits", "anchors": ["horqrux/apply.py:apply_gates", "horqrux/utils/operator_utils.py:density_mat"]}
{"id": "C08", "title": "Noiseless density-matrix evolution preserves trace, hermiticity and positivity", "statement": "Applying a unitary gate to a density matrix preserves its trace, preserves being hermitian, and preserves being positive semidefinite.", "quantifier": "every n, every rho, every unitary, every qubit placement", "why_tests_cant": "universally quantified invariant", "anchors": ["horqrux/apply.py:apply_operator(DensityMatrix)"]}
{"id": "C09", "title": "Gates on disjoint qubits commute", "statement": "If two gates (with their controls) act on disjoint sets of qubits, applying them in either order gives the same state.", "quantifier": "all states, matrices and disjoint qubit tuples", "why_tests_cant": "law over all states and placements", "anchors": ["horqrux/apply.py:apply_operator(Array)"]}
{"id": "C10", "title": "Merging operators does not change the result", "statement": "apply_gates(psi, gates, values, op_type, merge_ops=True) and merge_ops=False return the same state, and both equal applying the gates one after the other.", "quantifier": "every nonempty gate list, every state, parameter dictionary and operation type", "why_tests_cant": "merging depends on the pattern of equal neighbours in an arbitrarily long list", "anchors": ["horqrux/apply.py:merge_operators", "horqrux/apply.py:prepare_sequence_reduce", "horqrux/apply.py:apply_gates"]}
{"id": "C11", "title": "Grouping single-qubit gates does not change the result", "statement": "apply_gates(..., group_gates=True) gives the same state as group_gates=False for every list whose uncontrolled gates each act on one qubit; group_by_index returns a reordering of its input.", "quantifier": "every gate list with single-qubit uncontrolled gates, every state", "why_tests_cant": "sorting reorders arbitrarily long batches; soundness needs commutation of everything moved", "anchors": ["horqrux/apply.py:group_by_index", "horqrux/apply.py:apply_gates"]}
{"id": "C12", "title": "Grouping gates is safe for arbitrary gate lists", "statement": "apply_gates(..., group_gates=True) gives the same state as group_gates=False for every gate list.", "quantifier": "every gate list including multi-qubit gates such as SWAP, every state", "why_tests_cant": "the failing patterns (a multi-qubit gate next to a single-qubit gate on a shared qubit) are not in the tests", "anchors": ["horqrux/apply.py:group_by_index"]}
{"id": "C13", "title": "Empty circuits act as the identity", "statement": "apply_gates(state, []) and expectation/run on a circuit without operations leave the state unchanged.", "quantifier": "every state", "why_tests_cant": "boundary of the quantification over circuits; run and expectation take different paths", "anchors": ["horqrux/apply.py:prepare_sequence_reduce", "horqrux/composite/sequence.py:OpSequence.__call__", "horqrux/differentiation/ad.py:ad_expectation"]}
{"id": "C14", "title": "expand_operator pads with identities", "statement": "expand_operator(U, qubit_support, full_support) is the 2^n x 2^n matrix that acts as U on the bits of sorted(qubit_support) and as the identity on every other qubit of sorted(full_support); it raises ValueError when qubit_support is not contained in full_support.", "quantifier": "every matrix, every support and full support (contiguous or not)", "why_tests_cant": "permutation of kron factors for all supports", "anchors": ["horqrux/utils/operator_utils.py:expand_operator", "horqrux/utils/operator_utils.py:permute_basis", "horqrux/utils/operator_utils.py:hilbert_reshape"]}
{"id": "C15", "title": "permute_basis reorders the qubits of an operator and is undone by its inverse", "statement": "permute_basis(A, s, False) is the operator A, whose axes belong to the qubits of s in increasing order, written with its axes in the order of s; inv=True goes from the order of s to increasing order. permute_basis(permute_basis(A, s, False), s, True) = A = permute_basis(permute_basis(A, s, True), s, False). Sparse operators are treated alike.", "quantifier": "every operator tensor and every support of distinct qubits", "why_tests_cant": "all permutations of all sizes", "anchors": ["horqrux/utils/operator_utils.py:permute_basis"]}
{"id": "C16", "title": "A gate's tensor is the matrix of its action", "statement": "For a gate with target qubits listed in increasing order, multiplying a state by gate.tensor(values, full_support) (full_support all qubits of the state) gives the same state as applying the gate, controlled or not.", "quantifier": "every gate, every values, every state, every number of qubits", "why_tests_cant": "relates mask/index construction to tensordot for all sizes", "anchors": ["horqrux/primitives/primitive.py:Primitive.tensor", "horqrux/utils/operator_utils.py:controlled", "horqrux/utils/operator_utils.py:prepare_controlled", "horqrux/utils/operator_utils.py:expand_operator"]}
{"id": "C17", "title": "A gate's tensor is the matrix of its action for any target order", "statement": "The same as the previous property for target qubits listed in any order, e.g. HamiltonianEvolution((1,0)).", "quantifier": "every gate, every order of target qubits", "why_tests_cant": "tests only use symmetric two-qubit gates", "anchors": ["horqrux/primitives/primitive.py:Primitive.tensor", "horqrux/utils/operator_utils.py:expand_operator", "horqrux/analog.py:HamiltonianEvolution"]}
{"id": "C18", "title": "A sequence's tensor is the matrix of its action", "statement": "OpSequence(ops).tensor(values, full_support) multiplied with a state gives the same as calling OpSequence(ops) on the state.", "quantifier": "every list of operations, every state", "why_tests_cant": "order of a product of arbitrarily many non-commuting matrices; not tested", "anchors": ["horqrux/composite/sequence.py:OpSequence.tensor", "horqrux/composite/sequence.py:OpSequence.__call__"]}
{"id": "C19", "title": "Add and Scale tensors are the matrices of their actions", "statement": "Add(ops).tensor is the sum of the tensors and Scale(op, c).tensor is c times the tensor, and each agrees with the action of the composite on states.", "quantifier": "all primitives, coefficients and states", "why_tests_cant": "universally quantified linear-algebra law", "anchors": ["horqrux/composite/compose.py:Add", "horqrux/composite/compose.py:Scale"]}
{"id": "C20", "title": "Library gate matrices are unitary", "statement": "The matrices of I,X,Y,Z,H,S,T,SWAP and of RX,RY,RZ,PHASE at every angle are unitary; I,X,Y,Z,H,SWAP are hermitian and square to the identity.", "quantifier": "every gate name, every real angle", "why_tests_cant": "every real angle", "anchors": ["horqrux/matrices.py:OPERATIONS_DICT", "horqrux/utils/operator_utils.py:_unitary", "horqrux/primitives/parametric.py:_PHASE._unitary"]}
{"id": "C21", "title": "Rotations form a one-parameter group generated by their Pauli", "statement": "RX/RY/RZ satisfy U(a)U(b)=U(a+b), U(0)=I, U(a)^dagger = U(-a), U(2pi) = -I, and d/dtheta U(theta) = -(i/2) G U(theta).", "quantifier": "all real angles, all three axes", "why_tests_cant": "real quantification and a derivative", "anchors": ["horqrux/utils/operator_utils.py:_unitary", "horqrux/primitives/parametric.py:Parametric._unitary"]}
{"id": "C22", "title": "Every exported gate constructor yields an applicable gate", "statement": "Every gate constructor exported by horqrux.primitives (including SQRTSWAP, ISWAP, ISQRTSWAP) yields a gate that can be applied to a state.", "quantifier": "every exported constructor", "why_tests_cant": "three constructors are never exercised by the tests", "anchors": ["horqrux/primitives/primitive.py:SQRTSWAP", "horqrux/primitives/primitive.py:ISWAP", "horqrux/primitives/primitive.py:ISQRTSWAP", "horqrux/matrices.py:OPERATIONS_DICT"]}
{"id": "C23", "title": "JACOBIAN is the derivative of the gate", "statement": "gate.jacobian(values) is the entrywise derivative of gate._unitary with respect to the gate's angle, for RX, RY, RZ and PHASE.", "quantifier": "every parametric gate and every angle", "why_tests_cant": "derivative at every real angle", "anchors": ["horqrux/utils/operator_utils.py:_jacobian", "horqrux/primitives/parametric.py:Parametric.jacobian", "horqrux/primitives/parametric.py:_PHASE.jacobian"]}
{"id": "C24", "title": "Applying JACOBIAN is the derivative of applying the gate", "statement": "apply_gates(psi, g, values, JACOBIAN) is the derivative of apply_gates(psi, g, values) with respect to the angle, controlled or not.", "quantifier": "every parametric gate, every angle, every control, every state", "why_tests_cant": "derivative at every real angle and for every control set", "anchors": ["horqrux/apply.py:apply_operator", "horqrux/utils/operator_utils.py:_controlled", "horqrux/primitives/parametric.py:Parametric.jacobian"]}
{"id": "C25", "title": "Noise channels are trace preserving", "statement": "For every noise type and every accepted error probability the Kraus operators satisfy sum_i K_i^dagger K_i = identity.", "quantifier": "all seven noise types, every accepted (tuple of) probability", "why_tests_cant": "continuum of probabilities", "anchors": ["horqrux/noise/utils_noise.py:BitFlip", "horqrux/noise/utils_noise.py:GeneralizedAmplitudeDamping", "horqrux/noise/noise.py:DigitalNoiseInstance.kraus"]}
{"id": "C26", "title": "Noise parameters are validated exactly", "statement": "DigitalNoiseInstance(type, p).kraus raises ValueError exactly when p (or a component, or for PauliChannel the sum) is outside [0,1], and otherwise returns the Kraus operators.", "quantifier": "every noise type and every real probability argument of the right arity", "why_tests_cant": "continuum of probabilities, boundary behaviour", "anchors": ["horqrux/noise/utils_noise.py", "horqrux/noise/noise.py:DigitalNoiseInstance.kraus"]}
{"id": "C27", "title": "Noise channels are the documented ones", "statement": "The channel rho -> sum_i K_i rho K_i^dagger built from each noise type's Kraus operators is the documented formula, e.g. BitFlip: (1-p) rho + p X rho X.", "quantifier": "every noise type, accepted probability and 2x2 matrix rho", "why_tests_cant": "continuum of probabilities and matrices", "anchors": ["horqrux/noise/utils_noise.py"]}
{"id": "C28", "title": "A noisy gate applies the gate and then its channels on the target qubit", "statement": "Applying a single-target gate with noise (n_1..n_r) to a state or density matrix yields: rho1 = U rho U^dagger, then successively for each n_j: rho <- sum_i K_i rho K_i^dagger with K_i acting on the target qubit only; a state vector is first converted to its density matrix.", "quantifier": "every gate, control set, noise tuple, state, number of qubits", "why_tests_cant": "expansion of Kraus operators for all n and targets", "anchors": ["horqrux/apply.py:apply_operator_with_noise", "horqrux/apply.py:apply_kraus_sum", "horqrux/apply.py:apply_gates"]}
{"id": "C29", "title": "Noisy evolution preserves trace, hermiticity and positivity", "statement": "Running any list of unitary gates with any accepted single-qubit noise keeps the trace of the density matrix, keeps it hermitian, and keeps it positive semidefinite.", "quantifier": "every circuit of single-target gates with noise, every density matrix", "why_tests_cant": "invariant over arbitrarily long noisy circuits", "anchors": ["horqrux/apply.py:apply_gates", "horqrux/apply.py:apply_operator_with_noise"]}
{"id": "C30", "title": "Zero-probability noise is no noise", "statement": "A gate with a noise instance of probability zero (all components zero) evolves a density matrix exactly like the noiseless gate, for the channels where p=0 is the identity.", "quantifier": "every gate, state and number of qubits", "why_tests_cant": "all states and sizes", "anchors": ["horqrux/noise/utils_noise.py", "horqrux/apply.py:apply_operator_with_noise"]}
{"id": "C31", "title": "Noise can be attached to multi-qubit gates", "statement": "Applying SWAP((a,b), noise=...) with a single-qubit noise instance succeeds.", "quantifier": "every pair of qubits and state", "why_tests_cant": "boundary case absent from the tests", "anchors": ["horqrux/apply.py:apply_operator_with_noise", "horqrux/utils/operator_utils.py:expand_operator"]}
{"id": "C32", "title": "apply_kraus_operator applies K rho K^dagger on any target", "statement": "apply_kraus_operator(K, rho, target) is K rho K^dagger with K acting on the qubits in target.", "quantifier": "every target tuple, every K and rho", "why_tests_cant": "internally only called with all qubits; the documented argument allows any", "anchors": ["horqrux/apply.py:apply_kraus_operator"]}
{"id": "C33", "title": "Sparse simulation rejects noise", "statement": "apply_gates on a sparse state with any noisy gate raises NotImplementedError, and without noise does not.", "quantifier": "every sparse state and gate list", "why_tests_cant": "all positions of the noisy gate in the list", "anchors": ["horqrux/apply.py:apply_gates(BCOO)"]}
{"id": "C34", "title": "Sparse and dense simulation agree", "statement": "Converting to dense commutes with applying gates: the dense form of the result of a sparse simulation is the result of the dense simulation of the dense state.", "quantifier": "every sparse state (with arbitrary, possibly duplicate or explicit-zero entries), every list of gates that are all sparse or all dense", "why_tests_cant": "all sparsity patterns", "anchors": ["horqrux/apply.py:apply_operator(BCOO)", "horqrux/utils/operator_utils.py:_controlled(BCOO)", "horqrux/utils/operator_utils.py:product_state"]}
{"id": "C35", "title": "Probabilities of a normalised state vector form a distribution", "statement": "probabilities(psi) has 2^n nonnegative entries |psi_x|^2 in bitstring order, which sum to the squared norm of psi.", "quantifier": "every state and number of qubits", "why_tests_cant": "all states", "anchors": ["horqrux/utils/operator_utils.py:probabilities(Array)"]}
{"id": "C36", "title": "Probabilities of a density matrix are its diagonal", "statement": "probabilities(DensityMatrix) returns the 2^n diagonal entries <x|rho|x>.", "quantifier": "every density matrix in the library's own [2,...,2] layout", "why_tests_cant": "tests never call it directly with more than one qubit", "anchors": ["horqrux/utils/operator_utils.py:probabilities(DensityMatrix)", "horqrux/utils/operator_utils.py:DensityMatrix"]}
{"id": "C37", "title": "sample returns a complete histogram of bitstrings", "statement": "sample(state, circuit, values, n_shots) returns counts whose keys are n-bit binary strings, whose counts are positive, each equal to the number of drawn outcomes with that index, and sum to n_shots; it raises ValueError iff n_shots < 1.", "quantifier": "every outcome sequence of the random generator, every n_shots, every n", "why_tests_cant": "all random outcomes", "anchors": ["horqrux/api.py:sample", "horqrux/utils/operator_utils.py:sample_from_probs"]}
{"id": "C38", "title": "sample draws from the probabilities of the circuit's output", "statement": "The probability vector sample hands to the generator is |psi_x|^2 of the output state, or the diagonal of the output density matrix, in bitstring order.", "quantifier": "every state or density matrix, every circuit", "why_tests_cant": "all circuits and states", "anchors": ["horqrux/api.py:sample", "horqrux/utils/operator_utils.py:probabilities"]}
{"id": "C39", "title": "sample does not modify the caller's state", "statement": "After sample(state, circuit) the state object passed in is unchanged.", "quantifier": "every state or density matrix and every circuit (including the empty one)", "why_tests_cant": "aliasing only shows for particular circuits; a property of histories of calls", "anchors": ["horqrux/api.py:sample"]}
{"id": "C40", "title": "Pure-state and density-matrix expectations agree", "statement": "expectation(density_mat(psi), circuit, observables, values) = expectation(psi, circuit, observables, values) for observables that are sums of (scaled) primitive gates with increasing targets, provided sets of qubits are iterated in increasing order.", "quantifier": "every state, circuit, observable and values", "why_tests_cant": "two code paths on all inputs", "anchors": ["horqrux/differentiation/ad.py:_ad_expectation_single_observable", "horqrux/differentiation/ad.py:ad_expectation"]}
{"id": "C41", "title": "Density-matrix expectations do not depend on set iteration order", "statement": "The density-matrix expectation of an observable is Re tr(O rho) whatever order Python iterates the set of qubits of the observable in (e.g. {1, 8} iterates as 8, 1 in CPython).", "quantifier": "every iteration order of a set of qubits, every observable", "why_tests_cant": "needs nine or more qubits in CPython; tests stop at seven", "anchors": ["horqrux/differentiation/ad.py:_ad_expectation_single_observable(DensityMatrix)", "horqrux/composite/sequence.py:OpSequence.qubit_support"]}
{"id": "C42", "title": "Expectation is Re<psi|O|psi> of the circuit output and is linear in the observable", "statement": "expectation(psi, circuit, [O], values) = Re <phi|O phi> with phi the output of the circuit; the expectation of an Add/Observable is the sum and of a Scale is c times the expectation.", "quantifier": "every circuit of gates, state, observable", "why_tests_cant": "all circuits and states", "anchors": ["horqrux/differentiation/ad.py:ad_expectation", "horqrux/composite/compose.py:Observable"]}
{"id": "C43", "title": "run and expectation see the same circuit", "statement": "expectation(state, circuit, [O], values) is the expectation of O in run(circuit, state, values), for every circuit built from the library's composites (OpSequence, QuantumCircuit, Scale, Add).", "quantifier": "every nesting of composites", "why_tests_cant": "all nestings; expectation flattens the circuit, run does not", "anchors": ["horqrux/composite/sequence.py:OpSequence.__iter__", "horqrux/differentiation/ad.py:ad_expectation", "horqrux/api.py:run"]}
{"id": "C44", "title": "Flattening sequences of gates does not change the circuit", "statement": "For every nesting of OpSequence/QuantumCircuit over gates, calling the circuit equals applying the flattened list of gates in order, so expectation and run agree.", "quantifier": "every nesting depth and arrangement", "why_tests_cant": "all nestings", "anchors": ["horqrux/composite/sequence.py:OpSequence.__iter__", "horqrux/composite/sequence.py:OpSequence.__call__"]}
{"id": "C45", "title": "Scale multiplies any operation by its parameter", "statement": "Scale(op, c) applied to a state is c times op applied to the state, for op a gate, an OpSequence or an Add.", "quantifier": "every operation, coefficient and state", "why_tests_cant": "all operations; Scale of Add is not tested", "anchors": ["horqrux/composite/compose.py:Scale.__init__", "horqrux/composite/sequence.py:OpSequence.__iter__"]}
{"id": "C46", "title": "Expectation modes dispatch and reject as documented", "statement": "expectation raises ValueError for negative n_shots in AD and GPSR mode, TypeError for a density matrix in ADJOINT mode, ValueError for an unknown mode; otherwise it runs exactly the requested backend.", "quantifier": "every mode, n_shots and state kind", "why_tests_cant": "complete case analysis", "anchors": ["horqrux/api.py:expectation"]}
{"id": "C47", "title": "AD, ADJOINT and GPSR return the same value", "statement": "For flat values, a state vector and n_shots = 0 the three differentiation modes return the same expectation values.", "quantifier": "every circuit, observables list, values", "why_tests_cant": "three code paths on all inputs", "anchors": ["horqrux/api.py:expectation", "horqrux/differentiation/adjoint.py:ad_expectation", "horqrux/differentiation/gpsr/analytical.py:analytical_expectation", "horqrux/differentiation/ad.py:ad_expectation"]}
{"id": "C48", "title": "Separate circuit/observable values work in every mode", "statement": "values={'circuit': v, 'observables': w} is accepted in every differentiation mode and means: gates use v, observables use w.", "quantifier": "every v, w, circuit, mode", "why_tests_cant": "all modes; only AD is tested", "anchors": ["horqrux/api.py:expectation", "horqrux/utils/values_utils.py:_values_processing", "horqrux/differentiation/adjoint.py:ad_expectation", "horqrux/differentiation/gpsr/analytical.py:analytical_expectation"]}
{"id": "C49", "title": "In AD mode, separate values are routed correctly", "statement": "In AD mode without shots, values={'circuit': v, 'observables': w} gives the expectation with gates reading v and observables reading w; any other dictionary is used for both.", "quantifier": "every v, w, circuit, observables", "why_tests_cant": "all dictionaries", "anchors": ["horqrux/utils/values_utils.py:_values_processing", "horqrux/differentiation/ad.py:ad_expectation"]}
{"id": "C50", "title": "The finite-shot estimator is unbiased for one observable", "statement": "With one hermitian observable, the distribution used for sampling is a probability distribution over the observable's eigenvalues with mean Re<psi|O|psi> (resp. Re tr(O rho)), and every returned value lies between the smallest and largest eigenvalue.", "quantifier": "every state, density matrix, observable, eigendecomposition and outcome sequence", "why_tests_cant": "distributional statement over all states and outcomes", "anchors": ["horqrux/shots.py:eigen_sample", "horqrux/shots.py:eigen_probabilities", "horqrux/shots.py:align_eigenvectors"]}
{"id": "C51", "title": "Finite-shot expectations are right for several observables", "statement": "With several observables the mean of the finite-shot estimator of each observable is its exact expectation.", "quantifier": "every list of observables (not necessarily sharing eigenvectors)", "why_tests_cant": "needs non-commuting observables; tests only use Z(0), Z(1)", "anchors": ["horqrux/shots.py:align_eigenvectors", "horqrux/shots.py:permutation_matrix", "horqrux/shots.py:checkify_valid_permutation"]}
{"id": "C52", "title": "GPSR gradients are exact for rotation gates", "statement": "If the parameter occurs only in uncontrolled RX/RY/RZ gates of the circuit and each name is used by one gate, the gradient computed by GPSR is the derivative of the expectation with respect to that parameter.", "quantifier": "every circuit, state, observable not using the parameter, and parameter values", "why_tests_cant": "derivatives at all real points for all circuits", "anchors": ["horqrux/differentiation/gpsr/analytical.py:analytical_gpsr_bwd", "horqrux/differentiation/gpsr/analytical.py:analytical_gpsr_jvp", "horqrux/differentiation/gpsr/gpsr_utils.py:initialize_gpsr_ingredients"]}
{"id": "C53", "title": "GPSR gradients are exact for repeated rotation parameters", "statement": "If all parametric gates are uncontrolled RX/RY/RZ, every value name is used by some gate, some name is used by several gates, and the observables have no named parameters, the GPSR gradient of every parameter is the derivative of the expectation.", "quantifier": "every circuit with repeated names, state, observable, values", "why_tests_cant": "chain rule over arbitrarily many occurrences", "anchors": ["horqrux/differentiation/gpsr/analytical.py:analytical_gpsr_bwd", "horqrux/differentiation/gpsr/gpsr_utils.py:alter_gate_sequence", "horqrux/differentiation/gpsr/gpsr_utils.py:to_shift", "horqrux/differentiation/gpsr/analytical.py:analytical_gpsr_jvp", "horqrux/differentiation/gpsr/gpsr_utils.py:create_renamed_operators"]}
{"id": "C54", "title": "GPSR gradients are exact for controlled rotations", "statement": "The GPSR gradient is the derivative of the expectation when the parametric gate is a controlled rotation.", "quantifier": "every controlled rotation circuit, state, observable", "why_tests_cant": "tests only differentiate uncontrolled RX with GPSR", "anchors": ["horqrux/differentiation/gpsr/analytical.py:analytical_gpsr_bwd", "horqrux/primitives/parametric.py:Parametric.spectral_gap", "horqrux/primitives/parametric.py:Parametric.eigenvals_generator"]}
{"id": "C55", "title": "GPSR gradients do not depend on unused values", "statement": "Adding an entry to values that no gate and no observable uses does not change the GPSR gradient of the other parameters.", "quantifier": "every circuit and values", "why_tests_cant": "depends on counts of names; not tested", "anchors": ["horqrux/differentiation/gpsr/analytical.py:analytical_gpsr_bwd", "horqrux/differentiation/gpsr/gpsr_utils.py:extract_gate_names"]}
{"id": "C56", "title": "GPSR supports PHASE gates", "statement": "The GPSR gradient, by the forward and by the reverse rule, is the derivative of the expectation for circuits with uncontrolled PHASE gates, whether or not their parameter is shared with another gate.", "quantifier": "every circuit with PHASE gates", "why_tests_cant": "tests only use RX with GPSR", "anchors": ["horqrux/differentiation/gpsr/gpsr_utils.py:to_shift", "horqrux/differentiation/gpsr/gpsr_utils.py:new_named_parametric", "horqrux/primitives/parametric.py:_PHASE"]}
{"id": "C57", "title": "Shifting a rotation gate shifts its angle", "statement": "to_shift(g, s) acts with values v exactly as g acts with its parameter increased by s, keeping target, control, noise and sparsity; alter_gate_sequence changes only the indexed gate.", "quantifier": "every RX/RY/RZ gate, shift, values; every list and index", "why_tests_cant": "all real shifts, all lists", "anchors": ["horqrux/differentiation/gpsr/gpsr_utils.py:to_shift", "horqrux/differentiation/gpsr/gpsr_utils.py:alter_gate_sequence"]}
{"id": "C58", "title": "The adjoint backward rule computes the gradient", "statement": "adjoint_expectation_single_observable_bwd accumulates 2 Re<mu|projected> for every parametric gate of the circuit.", "quantifier": "every circuit", "why_tests_cant": "the rule is registered on a function the API never calls, so no test reaches it", "anchors": ["horqrux/differentiation/adjoint.py:adjoint_expectation_single_observable_bwd"]}
{"id": "C59", "title": "Pytree flattening round-trips gates and composites", "statement": "tree_unflatten(tree_flatten(x)) rebuilds an equal object for Primitive, Parametric, PHASE, OpSequence, Add, Observable, Scale, DigitalNoiseInstance and DensityMatrix.", "quantifier": "every such object", "why_tests_cant": "all field values", "anchors": ["horqrux/primitives/primitive.py:Primitive.tree_flatten", "horqrux/primitives/parametric.py:Parametric.tree_flatten", "horqrux/composite/sequence.py", "horqrux/composite/compose.py", "horqrux/noise/noise.py", "horqrux/utils/operator_utils.py:DensityMatrix"]}
{"id": "C60", "title": "Pytree flattening round-trips circuits", "statement": "tree_unflatten(tree_flatten(c)) rebuilds an equal QuantumCircuit (as JAX does at every jit boundary).", "quantifier": "every QuantumCircuit", "why_tests_cant": "never exercised by the tests", "anchors": ["horqrux/circuit.py:QuantumCircuit.tree_flatten", "horqrux/circuit.py:QuantumCircuit.tree_unflatten"]}
{"id": "C61", "title": "Pytree flattening round-trips Hamiltonian evolution", "statement": "tree_unflatten(tree_flatten(h)) rebuilds an equal HamiltonianEvolution, including its shift.", "quantifier": "every HamiltonianEvolution object", "why_tests_cant": "shift is zero in all tests", "anchors": ["horqrux/analog.py:_HamiltonianEvolution", "horqrux/primitives/primitive.py:Primitive.tree_flatten"]}
{"id": "C62", "title": "Sparse/dense conversion of gates and sequences round-trips", "statement": "to_dense(to_sparse(x)) = x for dense gates and for sequences/sums of them, and to_sparse/to_dense change nothing but the sparse flag.", "quantifier": "every gate and every nesting of OpSequence/Add/Observable", "why_tests_cant": "all nestings", "anchors": ["horqrux/utils/conversion.py:to_sparse", "horqrux/utils/conversion.py:to_dense"]}
{"id": "C63", "title": "Sparse/dense conversion preserves every operation", "statement": "to_sparse/to_dense preserve the operations of Scale over a sequence and the feature parameters of a QuantumCircuit.", "quantifier": "every Scale and QuantumCircuit", "why_tests_cant": "tests never convert a Scale of a sequence or a circuit with fparams", "anchors": ["horqrux/utils/conversion.py:to_sparse(Scale)", "horqrux/utils/conversion.py:to_sparse(QuantumCircuit)"]}
{"id": "C64", "title": "Variational parameters are the circuit's named parameters minus fparams", "statement": "For circuits whose parametric gates all carry names, vparams is exactly the set of names used by some gate of the (nested) circuit and not in fparams, and n_vparams is its size.", "quantifier": "every nesting and naming", "why_tests_cant": "all circuits", "anchors": ["horqrux/circuit.py:QuantumCircuit.vparams", "horqrux/composite/sequence.py:OpSequence.param_names"]}
{"id": "C65", "title": "Constant angles are not variational parameters", "statement": "A parametric gate with a numeric angle contributes nothing to param_names / n_vparams.", "quantifier": "every circuit with numeric angles", "why_tests_cant": "tests never count parameters of such a circuit", "anchors": ["horqrux/composite/sequence.py:OpSequence.param_names", "horqrux/circuit.py:QuantumCircuit.n_vparams"]}
{"id": "C66", "title": "hea builds the documented ansatz", "statement": "hea(n, L, fns, prefix) returns n*L blocks, each len(fns) rotations on one qubit followed by the ring of n CNOTs; all parameter names are distinct when uuid4 does not repeat; for n >= 2 every gate is applicable to an n-qubit state.", "quantifier": "every n >= 2, number of layers and list of rotations", "why_tests_cant": "all sizes", "anchors": ["horqrux/circuit.py:hea"]}
{"id": "C67", "title": "hea works for one qubit", "statement": "Every gate of hea(1, L) is applicable to a one-qubit state.", "quantifier": "every number of layers", "why_tests_cant": "boundary case not in the tests", "anchors": ["horqrux/circuit.py:hea"]}
{"id": "C68", "title": "Control qubits may be given as NumPy integers", "statement": "A control qubit given as np.int64 (accepted by parse_idx) controls the gate exactly as the Python int does.", "quantifier": "every gate and control", "why_tests_cant": "np.random.randint returns Python ints, so tests never pass np.int64", "anchors": ["horqrux/primitives/primitive.py:Primitive.parse_idx", "horqrux/utils/operator_utils.py:is_controlled"]}
{"id": "C69", "title": "Primitive.n_qubits counts the qubits of the gate", "statement": "gate.n_qubits is the number of distinct qubits in its support.", "quantifier": "every gate", "why_tests_cant": "never tested", "anchors": ["horqrux/primitives/primitive.py:Primitive.n_qubits", "horqrux/primitives/primitive.py:Primitive.qubit_support"]}
{"id": "C70", "title": "qubit_support is the sorted set of qubits a gate touches", "statement": "gate.qubit_support is strictly increasing and contains exactly the target and control qubits; a composite's support contains exactly the qubits of its operations.", "quantifier": "every gate and nesting", "why_tests_cant": "all gates and nestings", "anchors": ["horqrux/primitives/primitive.py:Primitive.qubit_support", "horqrux/composite/sequence.py:OpSequence.qubit_support"]}
{"id": "C71", "title": "Calling without a state starts from the zero state", "statement": "op() equals op(zero_state(n)) for n large enough to hold the operation's qubits.", "quantifier": "every gate and circuit", "why_tests_cant": "all placements; never tested", "anchors": ["horqrux/primitives/primitive.py:Primitive.__call__", "horqrux/composite/sequence.py:OpSequence.__call__"]}
{"id": "C72", "title": "Basis states are normalised one-hot arrays", "statement": "product_state(b) has amplitude 1 at b and 0 elsewhere; zero_state(n) is product_state('0'*n); sparse=True gives the same state; uniform_state(n) has equal amplitudes and norm 1; random_state is normalised.", "quantifier": "every bitstring, n, and random draw with nonzero norm", "why_tests_cant": "all sizes", "anchors": ["horqrux/utils/operator_utils.py:product_state", "horqrux/utils/operator_utils.py:zero_state", "horqrux/utils/operator_utils.py:uniform_state", "horqrux/utils/operator_utils.py:random_state"]}
{"id": "C73", "title": "overlap is the fidelity", "statement": "overlap(a, b) = |<a|b>|^2; in particular it lies in [0,1] for normalised states and equivalent_state ignores global phase.", "quantifier": "every pair of states", "why_tests_cant": "tests only use real inner products", "anchors": ["horqrux/utils/operator_utils.py:overlap", "horqrux/utils/operator_utils.py:equivalent_state"]}
{"id": "C74", "title": "is_normalized accepts exactly normalised states", "statement": "is_normalized(psi) holds iff the squared norm of psi, squared, is within the stated tolerance of 1; in particular it holds for every normalised state.", "quantifier": "every state", "why_tests_cant": "all states", "anchors": ["horqrux/utils/operator_utils.py:is_normalized", "horqrux/utils/operator_utils.py:equivalent_state", "horqrux/utils/operator_utils.py:overlap"]}
{"id": "C75", "title": "Missing parameters raise KeyError", "statement": "Applying a circuit containing a gate with a named parameter absent from values raises KeyError, and adding unused values never changes the result.", "quantifier": "every circuit and dictionary", "why_tests_cant": "all dictionaries", "anchors": ["horqrux/primitives/parametric.py:Parametric.__post_init__"]}
{"id": "C76", "title": "Hamiltonian evolution is unitary and additive in time", "statement": "With a hermitian hamiltonian, HamiltonianEvolution preserves norms, is the identity at time zero and composes additively in time.", "quantifier": "every hermitian matrix, time, state and target (assuming expm is the matrix exponential)", "why_tests_cant": "all hamiltonians and times", "anchors": ["horqrux/analog.py:_HamiltonianEvolution._unitary"]}
{"id": "C77", "title": "Fresh composites keep their operations", "statement": "Observable(op) and Add(op) built from an Add of sequences denote the same operator as the Add they are given.", "quantifier": "every nesting passed to the constructors", "why_tests_cant": "constructors flatten iterables; nestings are not tested", "anchors": ["horqrux/composite/compose.py:Add.__init__", "horqrux/composite/compose.py:Observable.__init__", "horqrux/composite/sequence.py:OpSequence.__iter__"]}
{"id": "C78", "title": "Density-matrix forward of composites", "statement": "Observable.forward / Add / Scale can be applied to a DensityMatrix.", "quantifier": "every composite with several terms and every density matrix", "why_tests_cant": "only single-term observables are tested on density matrices", "anchors": ["horqrux/composite/compose.py:Add.__call__", "horqrux/composite/compose.py:Scale.__call__", "horqrux/utils/operator_utils.py:DensityMatrix"]}
{"id": "C79", "title": "Finite-shot estimates concentrate around the expectation value", "statement": "With n_shots = k, each estimate has variance (<O^2> - <O>^2)/k over fair independent draws, and is off by eps or more with probability at most (<O^2> - <O>^2)/(k eps^2).", "quantifier": "every circuit, state, list of observables with common eigenvectors, number of shots, and every probability space of fair, pairwise independent draws", "why_tests_cant": "statistical tests compare a few seeded runs with loose tolerances", "anchors": ["horqrux/shots.py:finite_shots", "horqrux/shots.py:eigen_sample", "horqrux/api.py:expectation"]}
{"id": "C80", "title": "Finite-shot GPSR gradients are unbiased", "statement": "The gradient finite_shots_gpsr_backward returns has, over fair draws, the analytical GPSR gradient as expected value, hence the derivative of the expectation for circuits of rotations; if the analytical rule raises, it raises the same exception.", "quantifier": "every circuit, values (also shared by several gates), observables with common eigenvectors, way of splitting keys, and every probability space of fair draws", "why_tests_cant": "tests compare one seeded gradient with AD under a large tolerance", "anchors": ["horqrux/differentiation/gpsr/shots.py:finite_shots_gpsr_backward", "horqrux/shots.py:finite_shots"]}
{"id": "C81", "title": "Light cone: gates that cannot influence the measured qubits are invisible", "statement": "Removing from a circuit gates (noisy or not) that act on no measured qubit and on no qubit of a later kept gate leaves the expectation unchanged.", "quantifier": "every circuit, noise, initial state, observable and choice of gates outside the backward light cone", "why_tests_cant": "depends on the interaction of all later gates; no finite set of circuits covers it", "anchors": ["horqrux/api.py:expectation", "horqrux/api.py:run"]}
{"id": "C82", "title": "Circuits are linear in the initial state", "statement": "run on a psi + b phi gives a run(psi) + b run(phi); on a mixture of density matrices it gives the mixture of the outputs, and the expectation is the weighted mean of the expectations.", "quantifier": "every circuit, coefficients and states (noisy circuits for density matrices)", "why_tests_cant": "all superpositions and mixtures", "anchors": ["horqrux/api.py:run", "horqrux/api.py:expectation"]}
{"id": "C83", "title": "States with the same density matrix are indistinguishable", "statement": "Expectations and samples are equal for two initial states with the same density matrix: a state vector and density_mat of it, or two vectors that differ by a global phase; run carries the phase along.", "quantifier": "every circuit, observable, seed, and pair of states with equal density matrices", "why_tests_cant": "all pairs of states, across the vector and density-matrix code paths", "anchors": ["horqrux/api.py:run", "horqrux/api.py:sample", "horqrux/api.py:expectation", "horqrux/utils/operator_utils.py:density_mat"]}
{"id": "C84", "title": "Circuits compose", "statement": "run(c1 ; c2) on a state is run(c2) on run(c1), also through apply_gates and for expectations, even when only one part is noisy.", "quantifier": "every pair of circuits, noise and state", "why_tests_cant": "all splits of all circuits", "anchors": ["horqrux/api.py:run", "horqrux/api.py:expectation", "horqrux/apply.py:apply_gates"]}
{"id": "C85", "title": "Expectations are bounded by the coefficients of the observable", "statement": "On a normalised state or a density matrix of trace 1, |expectation| is at most the sum over the terms of |coefficient|.", "quantifier": "every circuit, noise, physical state and observable made of sums and multiples of sequences of gates", "why_tests_cant": "all observables and circuits", "anchors": ["horqrux/api.py:expectation"]}
{"id": "C86", "title": "Idle qubits do not matter", "statement": "The output on the first m qubits and the expectations of observables on them depend only on the reduced state of these qubits: adding qubits on which no gate acts changes nothing.", "quantifier": "every circuit on m qubits, every larger state with that reduced state, entangled or not", "why_tests_cant": "all sizes and states", "anchors": ["horqrux/api.py:run", "horqrux/api.py:expectation"]}
{"id": "C87", "title": "Qubit labels do not matter", "statement": "Applying a permutation to the labels of all qubits of the state, the circuit and the observable permutes the output and leaves the expectation unchanged.", "quantifier": "every permutation, circuit, noise, state and observable", "why_tests_cant": "all permutations", "anchors": ["horqrux/api.py:run", "horqrux/api.py:expectation", "horqrux/apply.py:apply_gates"]}
{"id": "C88", "title": "Full turns of an angle", "statement": "Adding 2 pi to an angle used by uncontrolled rotations and PHASE gates changes no expectation and no sample, and the output at most by a sign; adding 4 pi to any angle leaves the output identical.", "quantifier": "every circuit, state, angle and observable", "why_tests_cant": "all angles", "anchors": ["horqrux/primitives/parametric.py:Parametric._unitary", "horqrux/primitives/parametric.py:_PHASE._unitary", "horqrux/api.py:expectation"]}
{"id": "C89", "title": "The order of controls and of the targets of SWAP is irrelevant", "statement": "Permuting the control qubits of gates, or exchanging the targets of SWAP, does not change the result of run.", "quantifier": "every circuit, state and permutation of the controls", "why_tests_cant": "all control lists", "anchors": ["horqrux/apply.py:apply_operator", "horqrux/primitives/primitive.py:SWAP"]}
{"id": "C90", "title": "An empty noise tuple is no noise", "statement": "noise=() on a gate behaves as noise=None.", "quantifier": "every circuit with such gates, every state and observable", "why_tests_cant": "no test uses an empty tuple", "anchors": ["horqrux/primitives/primitive.py:Primitive", "horqrux/apply.py:apply_gates"]}
{"id": "C91", "title": "Observables of a list are evaluated independently", "statement": "expectation(state, circuit, [o1, ..., ok]) succeeds iff every expectation(state, circuit, [oi]) does (and k > 0), and returns the list of their values.", "quantifier": "every circuit, state, values, list of observables and unsampled differentiation mode", "why_tests_cant": "all lists", "anchors": ["horqrux/api.py:expectation", "horqrux/differentiation/ad.py:ad_expectation", "horqrux/differentiation/adjoint.py:adjoint_expectation"]}
{"id": "C92", "title": "Reported eigenvalues and spectral gap are those of the gate's generator", "statement": "For a parametric gate exp(-i t G/2), eigenvals_generator is the list of the eigenvalues of the generator G (of the controlled gate when there are controls), with multiplicity, and spectral_gap is the smallest difference between two different eigenvalues.", "quantifier": "every parametric gate, every target, every number of controls", "why_tests_cant": "tests check gradients of a few circuits, which use the gap only; the multiplicities and the controlled cases range over all gates", "anchors": ["horqrux/primitives/parametric.py:Parametric.eigenvals_generator", "horqrux/primitives/parametric.py:Parametric.spectral_gap"]}
{"id": "C93", "title": "Noise changes Pauli expectations by the textbook factors", "statement": "Adding a noise channel to the last gate changes the expectation v of X, Y or Z on its target to the value the channel prescribes: (1-2p) v or v for bit, phase flips, (1-4p/3) v for depolarizing, sqrt(1-g) v and (1-g) v + g for amplitude damping, and so on.", "quantifier": "every circuit, physical state, channel with an accepted parameter, Pauli observable and exact mode", "why_tests_cant": "all probabilities and states; tests check single channels on basis states", "anchors": ["horqrux/noise/utils_noise.py", "horqrux/apply.py:apply_gates", "horqrux/api.py:expectation"]}
{"id": "C94", "title": "Samples and expectations describe the same state", "statement": "For an observable that is diagonal in the computational basis, averaging its eigenvalues over the outcomes counted by sample is an unbiased estimate of what expectation returns; in particular the average of the signs of bit q estimates expectation of Z(q) (so bit q of a sampled bitstring is qubit q).", "quantifier": "every circuit, physical state, number of shots, diagonal observable and fair generator of random draws", "why_tests_cant": "random; all circuits and states", "anchors": ["horqrux/api.py:sample", "horqrux/api.py:expectation", "horqrux/utils/operator_utils.py:probabilities"]}
{"id": "C95", "title": "The tensor of a sparse operation is the sparse form of the dense tensor", "statement": "If every gate of an operation is built with sparse=True, op.tensor(values, full_support) is a BCOO array whose dense form is the tensor of the same operation with sparse=False, and it raises the exception the dense one raises; such an operation can be used as an observable of a density matrix.", "quantifier": "every nesting of sparse gates in Add, Observable, Scale, OpSequence and QuantumCircuit, every values dictionary and full support", "why_tests_cant": "tests build a few sparse tensors of single gates; nestings, supports and values are unbounded", "anchors": ["horqrux/primitives/primitive.py:Primitive.tensor", "horqrux/composite/sequence.py:OpSequence.tensor", "horqrux/composite/compose.py:Add.tensor", "horqrux/composite/compose.py:Scale.tensor", "horqrux/utils/operator_utils.py:expand_operator", "horqrux/utils/operator_utils.py:controlled"]}
{"id": "C96", "title": "Sparse programs compute the same as dense ones", "statement": "Running a circuit built with sparse=True on a BCOO state gives the sparse form of the state, and expectation (in each mode, without shots) the values, that the same program gives with sparse=False on the dense state; the same exceptions are raised.", "quantifier": "every BCOO state (repeated, zero and out-of-bounds entries included), every nesting of sparse noiseless gates, every list of observables and values", "why_tests_cant": "tests compare a few random circuits", "anchors": ["horqrux/api.py:run", "horqrux/api.py:expectation", "horqrux/differentiation/ad.py:_ad_expectation_single_observable", "horqrux/utils/operator_utils.py:inner", "horqrux/utils/conversion.py:to_sparse"]}
{"id": "C97", "title": "Sparse programs are never sampled", "statement": "sample, and expectation with a positive number of shots, raise an exception on a sparse program instead of returning numbers.", "quantifier": "every BCOO state, sparse noiseless circuit, observables, values, number of shots and sampling mode", "why_tests_cant": "all programs", "anchors": ["horqrux/api.py:sample", "horqrux/api.py:expectation", "horqrux/shots.py:finite_shots", "horqrux/utils/operator_utils.py:num_qubits"]}
{"id": "C98", "title": "Hamiltonian evolution solves the Schroedinger equation", "statement": "Running HamiltonianEvolution with a Hermitian Hamiltonian H gives, as a function of the evolution time t, a state that starts at the input, solves i d/dt psi = H psi (H acting on the targets where the controls are 1), keeps the norm, and conserves the mean of H and of everything that commutes with it.", "quantifier": "every number of qubits, state, Hermitian Hamiltonian, order of targets, controls and time", "why_tests_cant": "a differential equation over all times and states", "anchors": ["horqrux/analog.py:HamiltonianEvolution", "horqrux/analog.py:_HamiltonianEvolution._unitary", "horqrux/api.py:run"]}
{"id": "C99", "title": "Hamiltonian evolution can be mixed with gates in circuits", "statement": "A circuit of gates and Hamiltonian evolutions computes the product of their operators on state vectors and density matrices, its dagger undoes it, expectation gives the mean of the observable in every differentiation mode, and sample counts outcomes with the Born probabilities.", "quantifier": "every nesting of sequences of gates and evolutions, number of qubits, state, observables and values", "why_tests_cant": "all circuits; the tests apply a single evolution", "anchors": ["horqrux/analog.py:HamiltonianEvolution", "horqrux/apply.py:apply_gates", "horqrux/api.py:run", "horqrux/api.py:expectation", "horqrux/api.py:sample"]}
{"id": "C100", "title": "Noise channels obey the textbook algebra", "statement": "Anywhere in the noise tuple of a gate, two channels of a kind may be replaced by the one channel the textbook gives (for example two bit flips p, q by one bit flip p+q-2pq), Pauli-type channels and decay channels may be exchanged among themselves, and a channel may be replaced by the more general one it is a case of: run, sample and expectation do not change.", "quantifier": "every circuit, state, position of the noise, accepted noise parameters, mode, observables and shots", "why_tests_cant": "all probabilities, circuits and states", "anchors": ["horqrux/noise/utils_noise.py", "horqrux/noise/noise.py", "horqrux/apply.py:apply_gates", "horqrux/api.py:run", "horqrux/api.py:sample", "horqrux/api.py:expectation"]}
{"id": "C101", "title": "Pauli noise is a random Pauli error", "statement": "The expectation of a circuit in which a gate carries bit flip, phase flip, depolarizing or Pauli-channel noise is the mean, with the documented probabilities, of the expectations of the noiseless-gate circuits with the Pauli error inserted after the gate.", "quantifier": "every circuit (noisy elsewhere or not), state, accepted probability, observable and exact mode", "why_tests_cant": "all circuits, probabilities and states", "anchors": ["horqrux/noise/utils_noise.py", "horqrux/apply.py:apply_gates", "horqrux/api.py:expectation"]}
{"id": "C102", "title": "Circuit identities hold in any context", "statement": "A part of a circuit may be replaced by gates that a textbook identity makes equal: involutions, S S = Z, H X H = Z (with controls on the middle gate), rotations about one axis add their angles, PHASE at special angles, SWAP as three CNOTs, symmetry of CZ and CPHASE, exchange of gates on disjoint qubits. run, sample and expectation do not change.", "quantifier": "every circuit around the replaced part (noisy or not), every tuple of controls, angles, state, mode, observables and shots", "why_tests_cant": "all contexts, controls and angles; tests compare a few matrices", "anchors": ["horqrux/primitives/primitive.py", "horqrux/primitives/parametric.py", "horqrux/apply.py:apply_gates", "horqrux/utils/operator_utils.py:controlled", "horqrux/api.py:run", "horqrux/api.py:sample", "horqrux/api.py:expectation"]}
{"id": "C103", "title": "A global phase cannot be observed", "statement": "Replacing a part of a circuit by gates equal up to a global phase (RX(pi) by X, RZ(t) by PHASE(t), X then Y by Z, RZ RX RZ by H, ...) changes the state vector by a phase factor only, density matrices not at all, and neither samples nor expectations.", "quantifier": "every circuit around the replaced part, angle, state, observables, exact mode and number of shots of sample", "why_tests_cant": "all contexts and angles", "anchors": ["horqrux/primitives/primitive.py", "horqrux/primitives/parametric.py", "horqrux/apply.py:apply_gates", "horqrux/api.py:run", "horqrux/api.py:sample", "horqrux/api.py:expectation"]}
{"id": "C104", "title": "Expectations are trigonometric polynomials of every parameter", "statement": "As a function of one named parameter, each expectation value is a trigonometric polynomial whose degree is the number of gates using the parameter; if a controlled rotation uses it, the same holds in half the angle with twice the degree.", "quantifier": "every circuit (noisy or not), state, observable, exact mode, parameter and values of the other parameters", "why_tests_cant": "all angles and circuits; this is what data-reuploading models and shift rules rely on", "anchors": ["horqrux/primitives/parametric.py:Parametric._unitary", "horqrux/primitives/parametric.py:_PHASE._unitary", "horqrux/apply.py:apply_gates", "horqrux/utils/operator_utils.py:controlled", "horqrux/api.py:expectation"]}
{"id": "C105", "title": "Expectations are differentiable in every parameter", "statement": "The expectation of a circuit has a derivative with respect to every named numeric parameter, at every value, however many gates use it and whatever their controls and noise.", "quantifier": "every circuit, state, observable, exact mode, parameter and value", "why_tests_cant": "a derivative is a limit; tests evaluate at a few points", "anchors": ["horqrux/primitives/parametric.py:Parametric._unitary", "horqrux/primitives/parametric.py:_PHASE._unitary", "horqrux/apply.py:apply_gates", "horqrux/api.py:expectation", "horqrux/api.py:ad_expectation"]}
{"id": "C106", "title": "Second derivatives through the GPSR rule are exact", "statement": "jax.hessian of an expectation in GPSR mode without shots is the Hessian: the twice differentiated rule returns, for all pairs of parameters, the exact second derivatives of the expectation values, and the matrix is symmetric, also when several gates share a parameter.", "quantifier": "every circuit (noisy or not) whose named parameters feed uncontrolled rotations, every state, list of observables, values and pair of tangents", "why_tests_cant": "a second derivative is a double limit; the tests compare one two-gate circuit at one point with another autodiff result", "anchors": ["horqrux/differentiation/gpsr/analytical.py:analytical_gpsr_jvp", "horqrux/differentiation/gpsr/analytical.py:analytical_gpsr_fwd", "horqrux/api.py:expectation", "tests/differentiation/test_gpsr.py:dd_gpsr"]}
{"id": "C107", "title": "The hardware-efficient ansatz can be trained with the GPSR rule", "statement": "For the circuit built by hea with rotations among RX, RY, RZ, on any number of qubits from two and of any depth, the values, gradients and Hessians that GPSR mode returns (forward rule, backward function, twice differentiated rule) are the value, the gradient and the Hessian of the expectation.", "quantifier": "every number of qubits n >= 2, depth, list of rotations, prefix, values, state and list of observables", "why_tests_cant": "all widths, depths and angles", "anchors": ["horqrux/circuit.py:hea", "horqrux/circuit.py:QuantumCircuit", "horqrux/differentiation/gpsr/analytical.py:analytical_gpsr_jvp", "horqrux/differentiation/gpsr/analytical.py:analytical_gpsr_bwd", "horqrux/api.py:expectation"]}
{"id": "C108", "title": "Derivatives of any order through the GPSR rule are exact", "statement": "Differentiating an expectation in GPSR mode without shots any number of times, in any directions, returns the exact mixed partial derivatives of that order, contracted with the directions; the order of differentiation does not matter.", "quantifier": "every order, every list of tangents, every circuit (noisy or not) whose named parameters feed uncontrolled rotations, every state, list of observables and values", "why_tests_cant": "the order of differentiation is unbounded, and each derivative is a limit; the documentation promises higher-order derivatives, the tests stop at order two at one point", "anchors": ["horqrux/differentiation/gpsr/analytical.py:analytical_gpsr_jvp", "horqrux/differentiation/gpsr/analytical.py:analytical_gpsr_fwd", "horqrux/api.py:expectation", "docs/vqe.md"]}
{"id": "C109", "title": "The variational principle holds", "statement": "The expectation of a Hamiltonian in the output of any circuit, noisy or not, on any normalised state lies between the lowest and the highest energy of the Hamiltonian, exactly and in every finite-shot estimate; the lowest energy is returned exactly when the output is a ground state (or a mixture of ground states).", "quantifier": "every circuit, values of its parameters, initial state or density matrix, Hamiltonian (Observable), mode, number of shots and random key", "why_tests_cant": "VQE minimises over a continuum of parameters and relies on the value never going below the ground-state energy; tests check a few circuits", "anchors": ["horqrux/api.py:expectation", "horqrux/differentiation/ad.py:_ad_expectation_single_observable", "horqrux/shots.py:finite_shots_fwd", "horqrux/apply.py:apply_gates", "docs/vqe.md"]}
{"id": "C110", "title": "Density matrices are mixtures of state vectors, for every observation", "statement": "Every physical density matrix, in particular every output of a noisy circuit, is a mixture of normalised state vectors, and the expectation values on it are the means, with the weights of the mixture, of the expectation values on these state vectors.", "quantifier": "every density matrix of any number of qubits, every circuit, noise, list of observables and exact mode", "why_tests_cant": "all density matrices and circuits; tests compare a few pure states", "anchors": ["horqrux/apply.py:apply_gates", "horqrux/utils/operator_utils.py:DensityMatrix", "horqrux/api.py:expectation", "horqrux/api.py:run"]}
{"id": "C111", "title": "Pauli-string Hamiltonians are evaluated term by term", "statement": "For an Observable whose operations are Scale(P, c) or Scale(OpSequence([P0, ..., Pk]), c) with Pauli gates on distinct qubits (as the H2 Hamiltonian in the documentation), expectation returns the sum over the terms of c times the expectation of the tensor product of the Pauli matrices, in the output of the circuit; for state vectors and density matrices, in both modes, and in the mean with shots. The value lies between plus and minus the sum of |c|.", "quantifier": "every Hamiltonian (any number of terms, letters, qubits, real coefficients), circuit, noise, values, state and exact mode; every number of shots and fair sampling", "why_tests_cant": "all Hamiltonians, circuits and states; the documentation and the tests use one molecule", "anchors": ["horqrux/api.py:expectation", "horqrux/composite/compose.py:Scale", "horqrux/composite/sequence.py:OpSequence", "horqrux/composite/compose.py:Observable", "horqrux/differentiation/ad.py:_ad_expectation_single_observable", "horqrux/shots.py:finite_shots_fwd", "docs/vqe.md"]}
{"id": "C112", "title": "The arguments of the gate constructors take effect", "statement": "A gate built by I, X, NOT, Y, Z, H, S, T, SWAP, RX, RY, RZ or PHASE with given target, control, angle and noise arguments acts on state vectors and density matrices as its textbook matrix on these targets, under these controls, followed by the channels of the noise instances in order on the target.", "quantifier": "every constructor, target, control, angle (number or name), noise tuple, number of qubits and state", "why_tests_cant": "all combinations of arguments; tests use a few gates, mostly without noise and controls together", "anchors": ["horqrux/primitives/primitive.py:Primitive", "horqrux/primitives/primitive.py:X", "horqrux/primitives/primitive.py:SWAP", "horqrux/primitives/parametric.py:RX", "horqrux/primitives/parametric.py:PHASE", "horqrux/apply.py:apply_gates", "horqrux/noise/utils_noise.py:DigitalNoiseInstance"]}
{"id": "C113", "title": "Hamiltonian evolution has its closed forms", "statement": "Evolving under a Hermitian matrix H with H.H = 1 for the time t applies cos(t) - i sin(t) H, on any targets and under any controls; under a Pauli matrix it is the rotation RX, RY or RZ by the angle 2t, and under Z(x)Z it is CNOT, RZ(2t), CNOT, anywhere in a circuit; evolving under the sum of two commuting Hamiltonians is evolving under one and then under the other.", "quantifier": "every such Hamiltonian of any size, time, state, target and control qubits, number of qubits and surrounding circuit", "why_tests_cant": "all Hamiltonians and a continuum of times", "anchors": ["horqrux/analog.py:HamiltonianEvolution", "horqrux/primitives/parametric.py:RX", "horqrux/apply.py:apply_gates", "horqrux/api.py:run"]}
{"id": "C114", "title": "Parameter names are only names", "statement": "Writing an angle or the factor of a Scale as a number or under any name bound to that number, renaming parameters together with the keys of the dictionary of values, listing other feature parameters, and adding or removing unused values change nothing: run, sample, tensor and expectation return the same result or raise the same exception, in every mode, with and without shots.", "quantifier": "every circuit and nesting of operations, values, state, observables, mode, number of shots and key", "why_tests_cant": "all circuits, names and values; tests fix a handful of names", "anchors": ["horqrux/primitives/parametric.py:Parametric", "horqrux/api.py:run", "horqrux/api.py:sample", "horqrux/api.py:expectation", "horqrux/composite/compose.py:Scale", "horqrux/circuit.py:QuantumCircuit"]}
{"id": "C115", "title": "Inverse circuits undo circuits", "statement": "Running a circuit and then the inverse gates (the same gate for I, X, NOT, Y, Z, H, SWAP, the negated angle for RX, RY, RZ, PHASE, PHASE(-pi/2) for S and PHASE(-pi/4) for T, with the same targets and controls) in the reverse order returns the initial state. Anywhere in a circuit, noisy or not, a part followed by its inverse can be removed without changing run, sample or expectation. After a circuit and the inverse of a second one, the probability of the initial basis state is the fidelity of the outputs of the two circuits.", "quantifier": "every circuit, choice of targets, controls and angles (numbers or names), values, state, surrounding circuit and noise, observables, mode, number of shots and key", "why_tests_cant": "all circuits and a continuum of angles", "anchors": ["horqrux/primitives/primitive.py:S", "horqrux/primitives/primitive.py:T", "horqrux/primitives/parametric.py:PHASE", "horqrux/primitives/parametric.py:RX", "horqrux/apply.py:apply_gates", "horqrux/api.py:run", "horqrux/api.py:sample", "horqrux/api.py:expectation"]}
{"id": "C116", "title": "Gates can be moved from the end of the circuit into the observable", "statement": "Evaluating an observable after a circuit that ends with the gates G is evaluating, after the circuit without them, the observable in which every Pauli letter P is replaced by G^-1 P G: by the textbook tables for H, S, X, Y, Z, RX, RY, RZ, PHASE, CNOT, CZ and SWAP, letter by letter in products and term by term in sums and multiples, operations on other qubits being unchanged. In particular a Pauli string can be measured by sampling: after H on the qubits with an X, and the inverse of S and H on those with a Y, the mean parity of the outcomes on its qubits is the mean of the string.", "quantifier": "every circuit, noisy or not, sequence of final gates and angles (numbers or names), observables built from Pauli gates by OpSequence, Scale and Add, state and exact mode; every Pauli string", "why_tests_cant": "all circuits, observables and a continuum of angles", "anchors": ["horqrux/api.py:expectation", "horqrux/api.py:run", "horqrux/composite/compose.py:Scale", "horqrux/composite/compose.py:Add", "horqrux/composite/sequence.py:OpSequence", "horqrux/composite/compose.py:Observable", "horqrux/primitives/primitive.py:H", "horqrux/primitives/parametric.py:RX"]}
{"id": "C117", "title": "Qubits that never interact are independent", "statement": "If no gate of a circuit acts both on qubits of a register and on qubits outside it, then, from a product state, the expectation of a product of an operation on the register and an operation on the other qubits is the product of their expectations, and the outcomes of measuring the register and of measuring the other qubits are independent: the probability of every bit string is the product of the probabilities of its two parts.", "quantifier": "every register, circuit whose gates, noisy or not, keep to one of the two parts in any interleaving, bit string prepared (as a state vector or a density matrix), values, operations on the two parts, exact mode", "why_tests_cant": "all circuits, registers and a continuum of values", "anchors": ["horqrux/api.py:expectation", "horqrux/api.py:run", "horqrux/apply.py:apply_gates", "horqrux/composite/sequence.py:OpSequence", "horqrux/utils/operator_utils.py:product_state"]}
{"id": "C118", "title": "Small changes of angles and small noise change expectations little", "statement": "Changing the values of the parameters changes an expectation by at most the size of the observable (the sum of the absolute values of its coefficients) times the change of the angles summed over the gates that use them; no derivative exceeds the size of the observable times the number of gates that use the parameter; and adding noise to the gates changes an expectation by at most twice the size of the observable times the sum of the error probabilities of the noise.", "quantifier": "every circuit, with or without noise and controls, number of qubits, physical state, two dictionaries of values, observable made of gates, sequences, scalings and sums, exact mode; every kind of noise channel with accepted probabilities", "why_tests_cant": "all circuits, values, states and probabilities", "anchors": ["horqrux/api.py:expectation", "horqrux/apply.py:apply_gates", "horqrux/apply.py:apply_operator_with_noise", "horqrux/noise/utils_noise.py:DigitalNoiseInstance", "horqrux/primitives/parametric.py:RX", "horqrux/analog.py:kraus_operators"]}
{"id": "C119", "title": "Sampled frequencies estimate the probabilities of outcomes", "statement": "In the histogram that sample returns, the relative frequency of any event (any set of bit strings) has as mean the probability of the event in the state that run returns; an event of probability zero never occurs; and with k independent draws the variance of the frequency is p(1-p)/k, so that it is eps or more away from the probability with probability at most 1/(4 k eps^2).", "quantifier": "every circuit, noisy or not, number of qubits, physical state, values, number of shots, event, eps > 0, and every finite probability space of fair generators", "why_tests_cant": "a statement about probabilities over all random draws and any number of shots", "anchors": ["horqrux/api.py:sample", "horqrux/api.py:run", "horqrux/utils/operator_utils.py:sample_from_probs", "horqrux/noise/utils_noise.py:DigitalNoiseInstance"]}
{"id": "C120", "title": "Outcomes on a register cannot be influenced from outside its light cone", "statement": "The probability of every event about the outcomes of some qubits is the same for two circuits that differ only in gates, noisy or not, outside the backward light cone of these qubits; in particular later gates on other qubits, even entangled ones, never change it (no signalling).", "quantifier": "every circuit, set of qubits, event on these qubits, initial state vector or density matrix, values, gates removed or added outside the light cone", "why_tests_cant": "all circuits, registers, events and states", "anchors": ["horqrux/api.py:run", "horqrux/api.py:sample", "horqrux/apply.py:apply_gates", "horqrux/apply.py:apply_operator_with_noise"]}
{"id": "C121", "title": "One-qubit gates act on each qubit separately; textbook circuits prepare their states for any number of qubits", "statement": "Running a circuit of one-qubit gates without controls applies, to the input state vector, the tensor product of the products of the matrices on each qubit. Consequently, for every number of qubits: H on every qubit is the Hadamard transform and turns zero_state into uniform_state; X gates on the 1s of a bitstring turn zero_state into product_state of it; H and a chain of CNOTs prepare the GHZ state; and the Bernstein-Vazirani circuit returns exactly the basis state of the hidden string.", "quantifier": "every number of qubits, circuit of one-qubit gates in any order and nesting, input state, bitstring", "why_tests_cant": "any number of qubits, all circuits of one-qubit gates, all hidden strings", "anchors": ["horqrux/api.py:run", "horqrux/apply.py:apply_gates", "horqrux/apply.py:apply_operator", "horqrux/utils/operator_utils.py:product_state", "horqrux/utils/operator_utils.py:uniform_state", "horqrux/primitives/primitive.py:H"]}
{"id": "C122", "title": "Finite-shot parameter-shift derivatives, forward and backward, are unbiased and concentrate", "statement": "Differentiating a finite-shot expectation with the GPSR method: the forward rule returns the finite-shot expectation together with, per observable, an estimate whose mean over the random draws is the exact directional derivative of the exact expectation; the backward rule returns per parameter an estimate whose mean is the exact derivative of the summed expectations. With fair independent draws of k shots, the mean squared error is at most (b * s)^2 / k, and the probability of an error of at least eps is at most (b * s)^2 / (k eps^2), where b bounds the eigenvalues of the observable (their sum over the observables for the backward rule) and s is the sum over the parameters of |tangent| times the number of gates that use the parameter (for the backward rule: that number).", "quantifier": "every circuit of dense gates whose parameters enter through rotations, repeated or not, noisy or not; input state; list of jointly measured observables; tangents; number of shots; keys and key splitting; fair independent draws", "why_tests_cant": "about the distribution over all random draws, for all circuits, values, tangents and numbers of shots", "anchors": ["horqrux/differentiation/gpsr/shots.py:finite_shots_jvp", "horqrux/differentiation/gpsr/shots.py:finite_shots_gpsr_backward", "horqrux/shots.py:finite_shots", "horqrux/differentiation/gpsr/gpsr_utils.py:alter_gate_sequence"]}
{"id": "C123", "title": "Negative qubit indices count from the last qubit", "statement": "Target and control qubits may be given by negative integers, which count from the last qubit (-1 is the last one): applying the circuit gives the same result as applying it with the non-negative indices, for state vectors and density matrices, with or without grouping, merging and noise. An index outside -n .. n-1, or two indices of one gate that stand for the same qubit, raise an exception.", "quantifier": "every list of gates with integer targets and controls, number of qubits, input state, parameter values and operation type", "why_tests_cant": "about all index tuples, circuits and states; the code resolves negative indices in some places only", "anchors": ["horqrux/apply.py:apply_operator", "horqrux/apply.py:apply_operator_with_noise", "horqrux/apply.py:group_by_index", "horqrux/apply.py:merge_operators", "horqrux/apply.py:apply_gates", "horqrux/utils/operator_utils.py:permute_basis", "horqrux/utils/operator_utils.py:expand_operator"]}
{"id": "C124", "title": "Two programs that agree at enough parameter values agree at all of them", "statement": "Take two programs: each a state, a circuit and observables, possibly on different registers and with noise. Give every parameter in a list of parameters a finite set of different values: more than twice as many as the gates that use the parameter in either circuit, within one turn, if only PHASE gates and uncontrolled rotations use it; otherwise more than four times as many, within two turns. If the expectation values of the two programs are equal at every point of the grid of these values, they are equal for all real values of the parameters. With only twice as many values the conclusion can fail.", "quantifier": "every register size, state, circuit, observables, noise, list of parameters and grid of values meeting the count", "why_tests_cant": "A test compares two implementations at finitely many parameter values; that this determines the comparison for the continuum of all values is a statement about all reals and all circuits.", "anchors": ["horqrux/api.py:expectation", "horqrux/apply.py:apply_gates", "horqrux/primitives/parametric.py:RX,RY,RZ,PHASE"]}
{"id": "C125", "title": "Circuits do not make states easier to tell apart", "statement": "Take two states such that no measurement distinguishes them by more than eps: every two-outcome measurement says yes with probabilities that differ by at most eps. Run the same circuit, noisy or not, on both. The outputs are again such that no measurement distinguishes them by more than eps. Hence the probability of any property of the measured bitstring changes by at most eps, and an exact expectation value changes by at most eps times the difference between the largest and the smallest value of the observable. Two normalised state vectors whose difference has length at most eps meet the condition.", "quantifier": "every register size, pair of states (vectors or density matrices), circuit, noise, parameter values, measurement, event and observable", "why_tests_cant": "Robustness against preparation errors is a statement about all pairs of states, all circuits and all measurements; tests compare a few states.", "anchors": ["horqrux/api.py:run,expectation", "horqrux/apply.py:apply_gates", "horqrux/noise/noise.py:DigitalNoiseInstance"]}
{"id": "C126", "title": "Gates that print the same do the same", "statement": "Take two gates made by the constructors of the library, possibly shifted by the parameter-shift rule, with the same noise and the same sparse flag. If repr gives the same text for both, they do the same to every state, with every parameter values and for each operation type. This holds when parameter names contain no comma and do not look like a number, when different numbers print differently, and, for HamiltonianEvolution, when NumPy integers print differently from Python integers (NumPy 2). The text of a noise instance determines its type and probabilities. The text of a gate does not show its noise, and a parameter named like a number prints like that number.", "quantifier": "every pair of gates of the library, with any targets, controls, parameter, shift; every state, values and operation type", "why_tests_cant": "That a text identifies a gate is a statement about all pairs of gates; tests compare a few texts.", "anchors": ["horqrux/primitives/primitive.py:Primitive.__repr__,name", "horqrux/primitives/parametric.py:Parametric.__repr__,name", "horqrux/analog.py:_HamiltonianEvolution", "horqrux/noise/utils_noise.py:DigitalNoiseInstance.__repr__"]}
{"id": "C127", "title": "Rounding errors add up at most linearly", "statement": "Suppose a noiseless circuit is evaluated with inexact arithmetic: the stored input differs from the intended state by at most eps, and the vector obtained after each portion of the circuit (one gate, or neighbouring gates that were merged) differs by at most delta from the exact result of that portion. With k portions the final vector is at most eta = eps + k delta away from what run returns with exact arithmetic. For a normalised input, the probability of any property of the measured bitstring read from the inexact vector is off by at most 2 eta + eta^2, and the value of an observable with values between -b and b by at most b (2 eta + eta^2).", "quantifier": "every register size, circuit without noise, parameter values, input, division into portions, per-step error and sequence of inexact vectors within it, event and observable", "why_tests_cant": "Whether errors stay small or are amplified depends on every intermediate vector of every circuit; tests compare a few runs within a tolerance.", "anchors": ["horqrux/api.py:run,expectation", "horqrux/apply.py:apply_gates", "horqrux/apply.py:merge_operators,group_by_index"]}
{"id": "C128", "title": "Control qubits are only read; measurements may be deferred", "statement": "Let S be a set of qubits that the gates of a circuit use only as controls, or through diagonal gates (I, Z, S, T, RZ, PHASE) with no other noise than phase flips or phase damping. Other gates may have any noise. Then the joint distribution of the outcomes of the qubits in S is the same before and after these gates, wherever in a program they stand. Moreover measuring the qubits of S at the end is the same as measuring them first: running the circuit on what remains of the input after an outcome on S gives exactly what remains of the output after that outcome, so all joint probabilities with other outcomes agree.", "quantifier": "every register size, set of qubits, circuit that only reads them, noise on the other qubits, parameter values, input state (vector or density matrix) and event on the set", "why_tests_cant": "A claim about all circuits, entangled inputs and joint outcomes; tests look at single controlled gates on basis states.", "anchors": ["horqrux/api.py:run,sample", "horqrux/apply.py:apply_gates,apply_operator", "horqrux/noise/noise.py:DigitalNoiseInstance"]}
{"id": "C129", "title": "The forward rule of GPSR is linear in the tangents", "statement": "Forward differentiation by GPSR, with exact expectations or with finitely many shots and a fixed random key, is linear: whenever it returns for tangents t and t', it returns for every combination a*t + b*t', the expectations are the same for all three, and the tangent of the output is the same combination of the two output tangents. JAX relies on this to transpose and batch a custom forward rule.", "quantifier": "every circuit (any gates, noise, controls), observables, values, tangents of equal length, coefficients, number of shots and random key for which the rule returns", "why_tests_cant": "A claim about all pairs of tangents and coefficients; the tests differentiate along fixed unit tangents.", "anchors": ["horqrux/differentiation/gpsr/gpsr_utils.py:create_renamed_operators,prepare_param_gates_seq", "horqrux/differentiation/gpsr/analytical.py:analytical_gpsr_jvp", "horqrux/differentiation/gpsr/shots.py:finite_shots_jvp"]}
{"id": "C130", "title": "Overlaps and purity", "statement": "Running a circuit without noise keeps tr(rho sigma) of any two inputs, vectors or density matrices; for vectors this is the fidelity, and for one state it is the purity tr(rho^2). Noise made of bit flips, phase flips, depolarizing, Pauli channels and phase damping never increases the purity, and leaves the maximally mixed state as it is, whatever the gates. With any noise the purity of the output is between 2^-n and 1. Amplitude damping can increase the purity (shown by an example).", "quantifier": "every register size, circuit, controls, noise and parameter values in the stated class, and every pair of input states, or physical state vector or density matrix", "why_tests_cant": "A claim about all pairs of states and all mixtures of noise; tests check the trace of single outputs.", "anchors": ["horqrux/api.py:run", "horqrux/apply.py:apply_gates,apply_operator_with_noise,apply_kraus_sum", "horqrux/noise/noise.py:DigitalNoiseInstance"]}
{"id": "C131", "title": "Expectations are polynomials in the error probability; zero-noise extrapolation is exact", "statement": "Let m noise instances of a circuit depend on one number p: the probabilities of a bit flip, phase flip, depolarizing or Pauli channel, or the temperature parameter of generalized amplitude damping, are of the form a + b p. Then every expectation value and every outcome probability of the circuit is a polynomial of degree at most m in p, over all p for which the probabilities are accepted. In particular, weights that extrapolate polynomials of degree at most m (Richardson extrapolation) give the exact value at another error probability, such as the value without this noise, from the values at m + 1 of them.", "quantifier": "every circuit, controls, fixed noise, number of varying noise instances, parameter values, input state, observable, event, set of error probabilities and extrapolation weights", "why_tests_cant": "A claim about all values of the error probability at once; tests run single values.", "anchors": ["horqrux/api.py:run,expectation", "horqrux/apply.py:apply_operator_with_noise,apply_kraus_sum", "horqrux/noise/noise.py:DigitalNoiseInstance", "horqrux/noise/utils_noise.py"]}
{"id": "C132", "title": "Clifford circuits: Pauli expectations are -1, 0 or 1 and possible outcomes are equally likely", "statement": "For a circuit made of I, X, NOT, Y, Z, H, S, CNOT, CZ and SWAP on a computational basis state, given as a state vector or as a density matrix, the expectation value of every Pauli string is -1, 0 or 1, so that of a Pauli Hamiltonian is the sum of its coefficients with these signs. Every measurement outcome of n qubits has probability 0 or 1 / 2^j, with the same j, at most n, for all outcomes of the circuit. If three outcomes can occur, so can their bitwise sum modulo 2. Each qubit alone reads 1 with probability 0, 1/2 or 1.", "quantifier": "every number of qubits, circuit of these gates of any depth, basis state, Hamiltonian of Pauli strings and measurement outcome", "why_tests_cant": "A claim about all circuits of a gate set at once; a test runs one circuit.", "anchors": ["horqrux/api.py:run,expectation", "horqrux/primitives/primitive.py", "horqrux/apply.py:apply_gates", "horqrux/composite/compose.py:Observable"]}
