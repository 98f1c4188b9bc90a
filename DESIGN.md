# Formal model of pasqal-io/horqrux in Rocq

## Approach

The model is a shallow embedding: every Python function of `/repo/horqrux` in scope becomes a
total Gallina function of the same name over explicit n-dimensional arrays (`shape` + row-major
`data`), with Python exceptions as values (`res A := Ok a | Err e`).  Each definition cites the
file and lines it models and says where it simplifies.  Properties are stated against small
independent specifications: states are functions from bit lists to complex numbers, gates act by
the textbook formula, channels by their Kraus sums, derivatives are the standard library's
`derivable_pt_lim`, sampled frequencies are multisets.

Properties that the faithful model violates are kept in full in `properties.jsonl`; the
development then proves the strongest true restriction found (`_partial`) and the refutation of the full
statement (`_refuted`, with a witness; often for a whole family of inputs).

### Files (all in `/verif/rocq/theories`, in dependency order)

| layer | files | content |
|---|---|---|
| scalars | `Cplx` | complex numbers as pairs of the standard library's reals, their ring, finite sums |
| Python | `Py`, `PyFacts` | `res` monad, exceptions, stable sort, `set`, `argsort`, list helpers |
| arrays | `Ndarray`, `NdFacts`, `NdPerm` | `reshape transpose moveaxis tensordot matmul kron eye expand_dims` broadcasting `.at[].set vdot` from NumPy's documented semantics |
| model | `OperatorUtils`, `ApplyOperator`, `Matrices`, `Noise`, `Sparse`, `Gates`, `Apply`, `Composite`, `SparseTensor`, `Conversion`, `Shots`, `Gpsr`, `GpsrSecond`, `GpsrOrder`, `Api`, `Signed`, `Repr` | one file per file (or part) of the repository; no proofs inside |
| specification | `Spec`, `GateSpec`, `PropSpec`, `NoiseSpec`, `SparseSpec`, `SampleSpec`, `ExpectSpec`, `ShotsSpec`, `GpsrSpec`, `GpsrSpec2`, `StructSpec`, `PhysSpec`, `SparseSpec2`, `EvolSpec`, `NoiseLawSpec`, `CircuitLawSpec`, `TrigSpec`, `GroupSpec`, `HessSpec`, `OrderSpec`, `VarSpec`, `PauliSpec`, `CtorSpec`, `NameSpec`, `InverseSpec`, `HeisSpec`, `IndepSpec`, `StableSpec`, `FreqSpec`, `SignalSpec`, `TextSpec`, `ShotGradSpec`, `SignedSpec`, `InterpSpec`, `ContractSpec`, `ReprSpec`, `RoundSpec`, `ReadSpec`, `TangentSpec`, `PuritySpec`, `NoisePolySpec`, `CliffordSpec` | what the theorems mention besides the model; no proofs inside |
| proofs | `SpecFacts`, `Deriv`, `*Facts`, `*Thm*` | lemmas |
| examples | `Examples`, `EvolExamples` | shared non-vacuity witnesses |
| properties | `PropApply PropTensor PropGates PropNoise PropSparse PropSample PropExpect PropShots PropGpsr PropGpsr2 PropStruct PropPhys PropEvol PropNoise2 PropCircuitLaw PropTrig PropPartial PropHess PropHea PropOrder PropVar PropPauli PropCtor PropEvol2 PropName PropInverse PropHeis PropIndep PropStable PropFreq PropSignal PropText PropShotGrad PropSigned PropInterp PropContract PropRepr PropRound PropRead PropTangent PropPurity PropNoisePoly PropClifford` | theorem statement, `exact`, `Print Assumptions`, an `Example` meeting the hypotheses |

### How the properties are proved

| ids | what is modelled | method |
|----|------------------|------------------|
| C01, C02, C03, C09 | `apply_operator` (Array) with `_controlled`, `tensordot`, `moveaxis` | index lemma for the composition of the array primitives, for all ranks; algebra on finite sums |
| C04, C05, C08 | `apply_gates` over gate lists, `_dagger` | adjointness of the textbook action, induction on the list |
| C06, C07 | `apply_operator` (DensityMatrix) with `permute_basis`, any set order | the tensor's matrix is E rho E^dagger; induction on the gate list |
| C10-C13 | `merge_operators`, `group_by_index`, `prepare_sequence_reduce` | induction over lists with commutation; counterexamples where false |
| C14-C19 | `expand_operator`, `permute_basis`, `controlled`, tensors | index computation on bits; counterexamples where false |
| C20-C24, C76 | gate matrices, `_unitary`, `_jacobian`, analog evolution | trigonometric identities, `derivable_pt_lim`, the contract of `expm` |
| C25-C33 | noise protocols, Kraus application | algebra over R per channel; induction over noise tuples and gate lists |
| C34 | BCOO arrays as coordinate lists | `todense` commutes with each primitive, then with each function |
| C35-C39, C44 | `probabilities`, `sample_from_probs`, `sample` | finite sums, counting, state returned explicitly for aliasing |
| C40-C49, C75 | `expectation` in its three modes | both sides reduced to the specification's quadratic form |
| C50, C51 | `shots.py` with `eigh`, `inv` and the sampler as oracles | spectral identities; witness for several observables |
| C52-C58 | GPSR fwd/bwd/jvp, gate shifting, adjoint bwd | derivative of trigonometric polynomials, product rule over the circuit; witnesses where false |
| C59-C74, C77, C78 | pytrees, conversion, parameters, `hea`, supports, state constructors | structural induction, computation |
| C79, C80 | finite-shot estimates and gradients over a finite probability space of generators | linearity of the mean, pairwise independence |
| C96, C97 | `run`, `sample`, `expectation` on BCOO states | the sparse/dense relation carried through every operation |
| C95 | the `tensor` methods on BCOO arrays (`SparseTensor`) | `todense` commutes with kron, transpose, reshape and the controlled block; induction over operations |
| C98, C99 | `HamiltonianEvolution` alone and inside circuits | the contract of `expm`, derivative of the product with the state; induction over the circuit |
| C100-C103 | `run`, `sample`, `expectation` on whole circuits | one-qubit matrix identities, lifted to any controls and to any surrounding circuit |
| C104, C105 | `expectation` as a function of one parameter | Laurent polynomials in exp(i t/2) with operator coefficients, by induction over the circuit; derivative of the resulting real sum |
| C106, C107, C108 | the GPSR rule differentiated twice (`GpsrSecond`) and any number of times (`GpsrOrder`), `hea` | the rule applied to its own inner calls, linearity of the second derivative over shifted circuits; induction on the order, with shifted values as the state of the induction; induction-free description of the gates of `hea` |
| C109, C110 | `expectation`, `run` on state vectors and density matrices | every positive operator is a sum of pure states (pivoting, by induction on the number of non-zero diagonal entries); linearity of the mean; the kernel of a positive operator |
| C111 | `Scale`, `OpSequence`, `Observable`, `expectation` | the operator of a string is the tensor product of its letters (induction on the letters); commuting sequences have the matrix of their action |
| C112 | the gate constructors, `apply_gates` | cases on the constructors, then the theorems on circuits |
| C113 | `HamiltonianEvolution` alone and inside circuits | uniqueness of the solution of E' = A E (the product with the adjoint has derivative 0), closed forms checked against it |
| C114 | `run`, `sample`, `tensor`, `expectation` | structural induction on pairs of operations that differ in the writing of parameters; equality of results, exceptions included |
| C115 | `run`, `sample`, `expectation` on a circuit followed by its inverse | table of inverse gates, induction over the circuit with the unitarity of every step; the cancelled part is removed by equality of the evolutions |
| C116 | `expectation` after a circuit with and without its final gates; `run` and the probabilities of the outcomes | tables as data; every entry is a 2x2 or 4x4 matrix identity lifted to n qubits, then induction on the observable and on the gates; cyclicity of the trace |
| C117 | `expectation` of operations on two registers and of their sequence; `run` and the probabilities of the outcomes | the operators are pulled back through the circuit from its end, each through the gates of its own register; operators local to complementary registers factorise at a basis state because they commute with the projectors of the other register |
| C118 | `expectation` for two dictionaries of values, its derivatives, and for a circuit and the same circuit without its noise | replacing one gate at a time: the expectation as a function of one angle has two tones and values bounded by the observable, hence a slope bounded by it; a channel equals the identity minus a positive map plus a positive map, both of trace the error probability |
| C119 | `sample` and `run` | the frequency is the average of the indicator of the event over the draws (C94's counting lemma); mean and variance of averages of fair, pairwise independent draws (C79) |
| C120 | `run` and the probabilities of events | the projector of an event on a register commutes with every gate and Kraus operator outside; light-cone argument of C81 |
| C121 | `run` on circuits of one-qubit gates, GHZ and Bernstein-Vazirani circuits | a one-qubit gate is a product kernel, product kernels multiply qubit by qubit; induction on the CNOT chain; phase kick-back turns the oracle into Z gates |
| C122 | `finite_shots_jvp`, `finite_shots_gpsr_backward` | both rules return, per parameter, a sum of half differences over explicit pairs of evaluation points; each evaluation has root mean square error b/sqrt k; Minkowski's inequality over the pairs, then Chebyshev |
| C123 | `apply_gates` with negative targets and controls (Signed.v) | `jnp.tensordot` and `jnp.moveaxis` resolve negative axes, so state vectors are right; `permute_basis` and `expand_operator` compare raw integers: its permutation is the identity or has the wrong length |
| C124 | `expectation` of two programs on a grid of parameter values | For each parameter an expectation is a trigonometric polynomial of known degree (C104); times a power of z = e^it it is a complex polynomial in z, and a polynomial with more roots than its degree allows is zero (synthetic division, induction on the degree); induction over the list of parameters for grids. A two-value counterexample shows that the count is sharp. |
| C125 | `run` and `expectation` on two nearby states | A circuit acts on density matrices as a linear map that keeps positivity and trace (C118 machinery); its dual maps every test to a test, so a measurement at the end is a measurement at the beginning. For amplitudes: 0 <= E <= 1 is a quadratic form, and a weighted parallelogram inequality bounds the difference of its values at two unit vectors. |
| C126 | `repr` of gates and of noise instances | The texts are modelled as strings (Repr.v). Each field ends before a character that cannot occur in it, so equal texts have equal fields: decimal digits are injective, tuples of comma-free texts are injective, the 17 kinds of gates have different heads. Equal fields give equal effects, since control indices are used only through their value and through the test that some control is a Python integer. |
| C127 | `run` and `expectation` with inexact intermediate vectors | Induction over the portions: the exact operator of the remaining circuit preserves distances (C04 machinery), so each error is carried along unchanged and the triangle inequality adds them. For observables: the cross term of a quadratic form bounded by b is at most 2 b times the two lengths (discriminant). |
| C128 | `run` on circuits in which some qubits are only controls or targets of diagonal gates | The projector onto an event about S commutes with every gate operator and every Kraus operator of the circuit (entries between bit strings that differ on S vanish, or the matrix is diagonal), hence with the whole evolution from both sides. Trace preservation gives the unchanged distribution. |
| C129 | `analytical_gpsr_jvp`, `finite_shots_gpsr_jvp` | The tangents enter only through the final contraction with the shift-rule gradients, which is linear; induction over the list of parameters. |
| C130 | `run` on vectors and density matrices | tr(rho sigma) is invariant under conjugation by a unitary. Each mixing channel is a convex combination of Pauli conjugations (phase damping through the phase-flip law of C100), and the Frobenius norm is convex (Jensen). Bounds from the 2x2 minors of a positive matrix and Cauchy-Schwarz. |
| C131 | `run`, `expectation` on circuits with varying noise | Each varying channel is an affine function of p on the 2x2 blocks of the density matrix; applying it to a polynomial of operators raises the degree by one, everything else is linear. Extrapolation by exchanging the two finite sums. |
| C132 | `run`, `expectation` on Clifford circuits | Each gate turns a product of Pauli letters with a phase in {1, -1, i, -i} into another such product (the tables of C116), so by induction the circuit does; such a product has one entry per row. The projector on an outcome is 2^-n times a sum of 2^n such products. An outcome distribution with all parities -1, 0 or 1 is uniform on its support, by Fourier inversion over the subsets of qubits. |
| C81-C94 | `run`, `sample`, `expectation` on whole circuits | the state evolution of the specification: locality, linearity, positivity, renaming |

## Trusted base

1. The kernel of Coq 8.16.1 (and `vm_compute` nowhere: only the lazy machine is used).  No axiom, parameter,
   functor, module type, `Admitted` or disabled kernel check is in the development.
2. Axioms of the standard library reported by `Print Assumptions` (per theorem in the table at the end):
   * A1 `ClassicalDedekindReals.sig_forall_dec` (constructed reals)
   * A2 `ClassicalDedekindReals.sig_not_dec` (order and completeness of the reals)
   * A3 `FunctionalExtensionality.functional_extensionality_dep` (used by the standard library's real analysis and trigonometry)
   * A4 `Classical_Prop.classic` (used by the standard library's mean value theorem)
3. The reading of Python, NumPy, JAX and BCOO by their documented semantics: `Py.v`, `Ndarray.v`, and the
   coordinate-list array of `Sparse.v`.
4. The correspondence of each model definition with the lines it cites.

### Oracles and their contracts

External calls with no executable meaning in the model are explicit arguments (record `world` of `Gates.v`, or a
function argument).  A theorem that needs something of them has the contract as a hypothesis.

| call in the code | model | contract | where it is satisfied |
|---|---|---|---|
| iteration order of a `set` of qubits | `set_iter` | `set_order` (`Spec.v`): a permutation of the elements | `Examples` |
| `jax.random.choice` | `choice` | `choice_contract` (`SampleSpec.v`): as many draws as asked for, each an index into the probabilities | `PropSample`, `PropShots` |
| `jnp.linalg.eigh`, `jnp.linalg.inv` | `eigh`, `inv_mat` | `diagonalised` (`ShotsSpec.v`) at the observable's matrix | `PropShots` |
| `jax.scipy.linalg.expm` | `expm` | `exponential_of` (`PropSpec.v`) at the generator | `EvolExamples` |
| `jnp.linalg.eigvalsh` | not an oracle: tabulated for the Pauli matrices and the identity, the only generators of the library | - | - |
| `uuid4` in `hea` | `uuid : nat -> string` | injective where distinct names are claimed | `PropStruct` |
| `jax.random.uniform` in `random_state` | a list of draws (the code uses the same key twice, so the same draws) | as stated in the theorem | `PropStruct` |

### Idealisations

* Floating point numbers are exact reals; dtypes (`_misc.py`), overflow, rounding and NaN are not modelled. C127 bounds what inexact arithmetic can do to a noiseless run, given a bound on the error of each step; that bound itself is a hypothesis.
* `jit`, `vmap`, `custom_vjp`, `custom_jvp` and `checkify` are identity wrappers: the model is the eager meaning of the
  wrapped function, and of the fwd/bwd/jvp rules as functions.  What `jax.grad` does through AD mode is
  not modelled: for AD only the evaluated function is.
* Where `jit` would refuse an argument that is not a pytree (`_PHASE`, `_HamiltonianEvolution`), the model raises.
* Qubit indices are natural numbers (Python int or np.int64) or `None`.  Signed.v models applying gates with
  negative indices (C123); elsewhere indices are not negative.  Array-valued indices are not modelled.
* The parameter dictionary is an ordered association list; batched (array-valued) parameters are not modelled.
* A parameter is a number, a name or (Hamiltonian evolution) a matrix.

### What is modelled, file by file

| file of /repo/horqrux | modelled | not modelled |
|---|---|---|
| `apply.py` | all functions | sparse density matrices (the library has none); `group_gates`/`merge_ops` on sparse gates beyond C34 |
| `analog.py` | `HamiltonianEvolution`, `_unitary` | tracing |
| `api.py` | `run`, `sample`, `expectation`, `adjoint_expectation` | - |
| `circuit.py` | `QuantumCircuit`, `vparams`, `n_vparams`, pytree, `hea` | - |
| `composite/sequence.py`, `composite/compose.py` | all of `OpSequence`, `Scale`, `Add`, `Observable` | - |
| `differentiation/ad.py` | `ad_expectation`, single-observable dispatch | - |
| `differentiation/adjoint.py` | forward, backward rule, `gate_bwd_apply` | - |
| `differentiation/gpsr/*` | all functions | order in which `vmap` evaluates |
| `noise/*` | all protocols, `kraus`, pytree, `__repr__` | - |
| `primitives/*` | all gates, tensors, jacobians, generators, pytree, `name` and `__repr__` | `__iter__` of a primitive beyond flattening |
| `matrices.py` | all constants | - |
| `shots.py` | all functions | `checkify` error text |
| `utils/operator_utils.py` | all except the next column | `StrEnum` |
| `utils/conversion.py` | `to_sparse`, `to_dense` | - |
| `utils/sparse_utils.py`, `utils/values_utils.py` | `_values_processing`; the four sparsified functions by their dense meaning | - |
| `_misc.py` | - | dtypes |


## Properties, theorems and their axioms

`A1`..`A4` are the axioms listed under "Trusted base"; `-` means "Closed under the global context".

| id | property | status | theorems (axioms) | restrictions / remarks |
|----|----|----|----|----|
| C01 | Gate application is the textbook action | proved | `C01_apply_operator_textbook` (A1 A3) |  |
| C02 | Out-of-contract gate applications raise | proved | `C02_apply_operator_raises` (A1), `C02_none_among_controls_raises` (A1) | for 2^k x 2^k matrices and natural-number qubit indices |
| C03 | Gate application is linear in the state | proved | `C03_apply_operator_linear` (A1 A3) |  |
| C04 | Unitary circuits preserve norms and inner products | proved | `C04_unitary_steps_preserve_inner_products` (A1 A3), `C04_circuits_preserve_inner_products` (A1 A2 A3) |  |
| C05 | The dagger operation undoes a gate | proved | `C05_dagger_undoes_gate` (A1 A2 A3), `C05_dagger_undoes_circuit` (A1 A2 A3), `C05_dagger_undoes_circuit_on_density_matrices` (A1 A2 A3) |  |
| C06 | Density matrices evolve as U rho U^dagger | proved | `C06_density_matrix_evolution` (A1 A3), `C06_operator_is_textbook_action` (A1 A3) |  |
| C07 | State-vector and density-matrix simulation agree | proved | `C07_state_vector_and_density_matrix_agree` (A1 A2 A3) |  |
| C08 | Noiseless density-matrix evolution preserves trace, hermiticity and positivity | proved | `C08_unitary_preserves_density_matrix` (A1 A3), `C08_circuits_preserve_density_matrix` (A1 A2 A3) |  |
| C09 | Gates on disjoint qubits commute | proved | `C09_disjoint_gates_commute` (A1 A3) |  |
| C10 | Merging operators does not change the result | proved | `C10_merging_does_not_change_the_result` (A1 A2 A3), `C10_gates_are_applied_one_after_the_other` (A1 A2 A3) | gates may be noisy; JACOBIAN for parametric gates only (others have no jacobian attribute) |
| C11 | Grouping single-qubit gates does not change the result | proved | `C11_grouping_does_not_change_the_result` (A1 A2 A3), `C11_single_qubit_gates_are_groupable` (-), `C11_grouping_reorders` (-) | uncontrolled gates with pairwise equal or disjoint target tuples, anything controlled stays in place; noiseless or with noise the library accepts (noise it rejects raises either way) |
| C12 | Grouping gates is safe for arbitrary gate lists | partial | `C12_grouping_multi_qubit_gates_refuted` (A1 A2 A3), `C12_grouping_applies_the_target_order_partial` (A1 A2 A3), `C12_grouping_ordered_gates_partial` (A1 A2 A3) | false of the code: counterexample X(1); SWAP(0,1) on \|00>; proved for every list of gates (noise and several targets included) in which, between controlled gates, gates that share a qubit come in the order of their target tuples; for every list at all the result is proved to be that of the ungrouped list in which each run of uncontrolled gates is stably ordered by target tuple |
| C13 | Empty circuits act as the identity | partial | `C13_run_of_empty_circuit_partial` (A1 A2 A3), `C13_apply_gates_of_empty_list_refuted` (A1 A2 A3), `C13_expectation_of_empty_circuit_refuted` (A1 A2 A3) | run on a circuit without gates is the identity (proved); apply_gates on an empty list and expectation of an empty circuit raise TypeError (proved), so the full statement is false of the code |
| C14 | expand_operator pads with identities | proved | `C14_expand_operator_pads_with_identities` (A1 A3), `C14_expand_operator_raises` (A1) |  |
| C15 | permute_basis reorders the qubits of an operator and is undone by its inverse | proved | `C15_permute_basis_inverse` (A1), `C15_permute_basis_reorders_the_qubits` (A1), `C15_sparse_tensors_are_permuted_alike` (A1) |  |
| C16 | A gate's tensor is the matrix of its action | proved | `C16_tensor_is_action` (A1 A2 A3), `C16_tensor_over_its_own_qubits` (A1 A2 A3), `C16_tensor_over_some_qubits` (A1 A2 A3) | for full_support None, all qubits in any order, and every set of qubits that contains those of the gate |
| C17 | A gate's tensor is the matrix of its action for any target order | partial | `C17_library_tensor_is_action_partial` (A1 A2 A3), `C17_any_target_order_refuted` (A1 A2 A4 A3), `C17_tensor_over_its_own_qubits` (A1 A2 A3), `C17_tensor_of_evolution_sorts_the_targets` (A1 A2 A3) | proved for the gates of the library (SWAP in any target order), and for every uncontrolled gate when full_support is None; false of the code for HamiltonianEvolution((1,0)) with a full_support (counterexample proved, given the contract of expm): there the tensor is exactly that of the evolution with sorted targets |
| C18 | A sequence's tensor is the matrix of its action | partial | `C18_tensor_is_reversed_action_partial` (A1 A2 A3), `C18_commuting_tensor_is_action_partial` (A1 A2 A3), `C18_tensor_is_action_refuted` (A1 A2 A3) | false of the code: the tensor of a sequence is the matrix of the reversed sequence (proved), which agrees when the operations commute (proved); counterexample X;Z |
| C19 | Add and Scale tensors are the matrices of their actions | proved | `C19_add_scale_tensors` (A1 A2 A3), `C19_tensors_over_some_qubits` (A1 A2 A3), `C19_tensors_over_their_own_qubits` (A1 A2 A3) | for nests of Add and Scale (of a single operation) over gates, with full_support None, all qubits, or any set of qubits that contains those of the operations; Scale of a sequence is C45 |
| C20 | Library gate matrices are unitary | proved | `C20_library_gates_are_unitary` (A1 A2 A3), `C20_pauli_gates_are_hermitian_involutions` (A1 A2 A3) |  |
| C21 | Rotations form a one-parameter group generated by their Pauli | proved | `C21_rotations_one_parameter_group` (A1 A2 A3) |  |
| C22 | Every exported gate constructor yields an applicable gate | partial | `C22_constructors_applicable_partial` (A1 A2 A3), `C22_constructors_applicable_refuted` (A1 A2 A3) | false of the code: SQRTSWAP, ISWAP, ISQRTSWAP raise KeyError when applied (proved) |
| C23 | JACOBIAN is the derivative of the gate | partial | `C23_jacobian_is_derivative_partial` (A1 A2 A3), `C23_jacobian_is_derivative_refuted` (A1 A2 A3), `C23_rotation_jacobian_partial` (A1 A2 A3) | false of the code for RX, RY, RZ: there it is the derivative exactly at the angles t with sin(t/2) = 0 (proved); proved for PHASE |
| C24 | Applying JACOBIAN is the derivative of applying the gate | partial | `C24_jacobian_application_partial` (A1 A2 A3), `C24_jacobian_application_refuted` (A1 A2 A3), `C24_sparse_rotations_have_no_jacobian` (A1 A2 A3), `C24_fixed_gates_have_no_jacobian` (A1 A2 A3), `C24_jacobian_of_controlled_phase_partial` (A1 A2 A3) | false of the code for controlled gates (counterexample proved); proved for uncontrolled PHASE; for PHASE with any controls the exact result is proved: the derivative where the controls are all 1, the input amplitude (instead of 0) elsewhere; rotations fail by C23; sparse rotations raise NotImplementedError, and gates without an angle AttributeError |
| C25 | Noise channels are trace preserving | proved | `C25_kraus_trace_preserving` (A1 A2 A3) | exact real arithmetic |
| C26 | Noise parameters are validated exactly | proved | `C26_valid_probability_accepted` (A1 A2 A3), `C26_invalid_probability_rejected` (A1 A2 A3) | for parameters of the right type and arity (well_typed) |
| C27 | Noise channels are the documented ones | proved | `C27_channels_as_documented` (A1 A2 A3) |  |
| C28 | A noisy gate applies the gate and then its channels on the target qubit | proved | `C28_noisy_circuit_on_density_matrix` (A1 A2 A3), `C28_noisy_circuit_on_state_vector` (A1 A2 A3), `C28_noisy_gate_on_density_matrix` (A1 A2 A3), `C28_noisy_gate_on_state_vector` (A1 A2 A3) | lists run in the given order (group_gates=False); gates with one target qubit, any controls |
| C29 | Noisy evolution preserves trace, hermiticity and positivity | proved | `C29_noisy_evolution_of_density_matrix` (A1 A2 A3), `C29_noisy_evolution_of_state_vector` (A1 A2 A3) |  |
| C30 | Zero-probability noise is no noise | proved | `C30_zero_probability_on_density_matrix` (A1 A2 A3), `C30_zero_probability_on_state_vector` (A1 A2 A3) | GeneralizedAmplitudeDamping is silent when the damping rate is 0 |
| C31 | Noise can be attached to multi-qubit gates | partial | `C31_noise_on_two_targets_refuted` (A1 A2 A3), `C31_noise_on_controlled_gates_partial` (A1 A2 A3) | false of the code: raises for every two-target gate and every accepted noise instance (proved); proved for one target and any controls |
| C32 | apply_kraus_operator applies K rho K^dagger on any target | partial | `C32_kraus_operator_partial` (A1 A3), `C32_kraus_operator_refuted` (A1 A3), `C32_any_targets_partial` (A1 A3) | proved for targets 0..m-1 in order (the only use inside the library); false of the code for target (1,) on two qubits (counterexample proved); C32_any_targets_partial gives the exact result for all targets (for one target q >= 1: qubit 1 of the rows and qubit 0 of the columns) |
| C33 | Sparse simulation rejects noise | proved | `C33_sparse_rejects_noise` (A1 A2 A3), `C33_noise_is_the_only_unsupported` (A1 A2 A3), `C33_sparse_runs_without_noise` (A1 A2 A3) | states and gates as accepted by the library; the sparse jacobian of a rotation is outside (raises NotImplementedError without noise) |
| C34 | Sparse and dense simulation agree | proved | `C34_sparse_and_dense_agree` (A1 A2 A3), `C34_dense_gates_on_a_sparse_state` (A1 A2 A3), `C34_sparse_and_dense_gates_mixed` (A1 A2 A3) | UNITARY and DAGGER operations; gates with explicit matrices (HamiltonianEvolution has no sparse matrix); any mixture of sparse and dense gates, on any state: a run that ends gives the dense result; a sparse matrix meeting a dense state raises TypeError |
| C35 | Probabilities of a normalised state vector form a distribution | proved | `C35_probabilities_of_a_state_vector` (A1 A2 A3) |  |
| C36 | Probabilities of a density matrix are its diagonal | partial | `C36_probabilities_of_a_square_density_matrix_partial` (A1), `C36_probabilities_of_one_qubit_partial` (A1), `C36_probabilities_of_a_density_matrix_refuted` (A1) | false of the code for two or more qubits in the [2,...,2] layout: the result has shape [2]*(2n-1) (proved for every n >= 2); the diagonal for one qubit and for square matrices (proved) |
| C37 | sample returns a complete histogram of bitstrings | proved | `C37_sample_rejects_fewer_than_one_shot` (A1 A2 A3), `C37_sample_returns_a_histogram` (A1 A2 A3) | jax.random.choice is an oracle with the contract choice_contract; the number of qubits is at least 1 |
| C38 | sample draws from the probabilities of the circuit's output | proved | `C38_sample_draws_from_the_output_state` (A1 A2 A3), `C38_sample_draws_from_the_output_density_matrix` (A1 A2 A3), `C38_sample_draws_from_the_born_distribution` (A1 A2 A3), `C38_sample_draws_from_the_final_density_matrix` (A1 A2 A3) | state vectors: circuits built from gates, Scale, Add, OpSequence, QuantumCircuit; density matrices and noisy gates: nested sequences of gates |
| C39 | sample does not modify the caller's state | partial | `C39_sample_keeps_the_state_partial` (A1 A2 A3), `C39_sample_keeps_the_state_refuted` (A1 A2 A3) | false of the code: a density matrix sampled with an empty circuit is reshaped in place (proved for every n >= 2); unchanged in all other cases (proved) |
| C40 | Pure-state and density-matrix expectations agree | proved | `C40_pure_and_density_matrix_expectations_agree` (A1 A2 A3) | circuits are nested sequences of gates (noise allowed); observables are sums of scaled sums of gates whose qubit set is iterated in increasing order, as the property says |
| C41 | Density-matrix expectations do not depend on set iteration order | partial | `C41_density_matrix_expectation_partial` (A1 A2 A3), `C41_set_order_refuted` (A1 A2 A3), `C41_any_set_order_partial` (A1 A2 A3) | Re tr(O rho) proved when the qubit set of the observable is iterated in increasing order; false otherwise: C41_set_order_refuted gives, on every register and for every a < b iterated as b, a, a state and observable with the wrong sign; C41_any_set_order_partial gives the exact value for every order: the observable is read with its qubits permuted |
| C42 | Expectation is Re<psi\|O\|psi> of the circuit output and is linear in the observable | proved | `C42_expectation_is_the_mean` (A1 A2 A3), `C42_expectation_is_linear` (A1 A2 A3) | circuits are nested sequences of noiseless gates; observables are sums of operations built from gates, Scale, Add, OpSequence |
| C43 | run and expectation see the same circuit | partial | `C43_run_and_expectation_partial` (A1 A2 A3), `C43_scale_in_a_circuit_refuted` (A1 A2 A3), `C43_add_in_a_circuit_refuted` (A1 A2 A3), `C43_scaled_circuit_refuted` (A1 A2 A3), `C43_expectation_flattens_partial` (A1 A2 A3) | proved for nested sequences of (noisy) gates; false for circuits with Scale or Add: expectation flattens the circuit and drops the factor, applies the summands one after the other, or raises AttributeError; C43_expectation_flattens_partial gives the exact result for every operation but Scale: the expectation of the plain sequence of all its gates |
| C44 | Flattening sequences of gates does not change the circuit | proved | `C44_flattening_keeps_the_circuit` (A1 A2 A3) | at least one gate (see C13 for none); gates may be noisy |
| C45 | Scale multiplies any operation by its parameter | partial | `C45_scale_of_an_operation_partial` (A1 A2 A3), `C45_scale_of_a_list_partial` (A1 A2 A3), `C45_scale_of_a_sum_refuted` (A1 A2 A3), `C45_scale_flattens_partial` (A1 A2 A3) | proved for gates, nested sequences of gates, Scale, and lists of operations; false for Add: Scale(Add([X, Z]), 1) applies Z after X; C45_scale_flattens_partial gives the exact result for every operation but Scale: the sequence of all its gates, scaled |
| C46 | Expectation modes dispatch and reject as documented | proved | `C46_rejected_calls` (A1 A2 A3), `C46_accepted_calls` (A1 A2 A3), `C46_accepted_calls_with_shots` (A1 A2 A3) |  |
| C47 | AD, ADJOINT and GPSR return the same value | partial | `C47_modes_agree_partial` (A1 A2 A3), `C47_gpsr_agrees_on_every_state_partial` (A1 A2 A3), `C47_adjoint_mode_with_noise_refuted` (A1 A2 A3) | proved for noise-free circuits (dense or sparse state vectors); AD = GPSR also for density matrices and noisy circuits; false for noisy circuits in ADJOINT mode, which always raises |
| C48 | Separate circuit/observable values work in every mode | partial | `C48_separate_values_in_other_modes_refuted` (A1 A2 A3), `C48_repeated_values_partial` (A1 A2 A3) | false of the code: proved for AD without shots (C49); in ADJOINT and GPSR mode and with shots such a dictionary raises KeyError for a parametric circuit; ADJOINT and GPSR agree with AD when the names are repeated at the top level with the same values (proved) |
| C49 | In AD mode, separate values are routed correctly | proved | `C49_separate_values_in_ad_mode` (A1 A2 A3) | observables as in C40/C42 |
| C50 | The finite-shot estimator is unbiased for one observable | proved | `C50_finite_shots_estimate_one_observable` (A1 A2 A3), `C50_finite_shots_unbiased_one_observable` (A1 A2 A3) | jnp.linalg.eigh, jnp.linalg.inv and jax.random.choice are oracles: eigh and inv as described by diagonalised (ShotsSpec.v) at the observable's matrix, choice as described by choice_contract |
| C51 | Finite-shot expectations are right for several observables | partial | `C51_finite_shots_common_eigenvectors_partial` (A1 A2 A3), `C51_finite_shots_unbiased_partial` (A1 A2 A3), `C51_finite_shots_other_observables_refuted` (A1 A2 A3) | proved when the eigenvectors returned for the observables are the same up to order; false otherwise: Z and X on \|0> give the estimator mean 1 for X (exact value 0) |
| C52 | GPSR gradients are exact for rotation gates | proved | `C52_gpsr_gradient_is_the_derivative` (A1 A2 A3) | gates of GateSpec.v (with noise), state vectors or density matrices; the observables may use other parameters; reverse rule: circuits without PHASE gates (see C56) |
| C53 | GPSR gradients are exact for repeated rotation parameters | proved | `C53_gpsr_repeated_gradient_is_the_derivative` (A1 A2 A3) | as C52; the temporary names are assumed distinct |
| C54 | GPSR gradients are exact for controlled rotations | partial | `C54_gpsr_controlled_rotation_partial` (A1 A2 A3), `C54_gpsr_controlled_rotation_refuted` (A1 A2 A3), `C54_gpsr_error_formula_partial` (A1 A2 A3) | false of the code in general: the GPSR gradient of a controlled rotation is wrong for a state with coherence between the control values; proved for states without such coherence, and the exact value GPSR returns in every case: the half-frequency part of the derivative is multiplied by sqrt 2 |
| C55 | GPSR gradients do not depend on unused values | partial | `C55_gpsr_unused_value_partial` (A1 A2 A3), `C55_gpsr_unused_value_refuted` (A1 A2 A3), `C55_gpsr_unused_value_error_refuted` (A1 A2 A3) | proved when no name is used twice; false otherwise: an extra unused value changes the gradient of the others to a wrong one (two gates sharing a name), or makes both rules fail |
| C56 | GPSR supports PHASE gates | partial | `C56_gpsr_phase_partial` (A1 A2 A3), `C56_gpsr_phase_reverse_refuted` (A1 A2 A3), `C56_gpsr_shared_phase_refuted` (A1 A2 A3) | proved for the forward rule when no name is shared; false otherwise: the reverse rule raises TypeError, and a shared PHASE parameter gives a wrong forward gradient |
| C57 | Shifting a rotation gate shifts its angle | proved | `C57_shifted_gate` (A1 A2 A3), `C57_altered_sequence` (A1) |  |
| C58 | The adjoint backward rule computes the gradient | partial | `C58_adjoint_phase_step_partial` (A1 A2 A3), `C58_adjoint_no_gradient_refuted` (A1 A2 A3) | proved for one step at an uncontrolled PHASE gate; false of the code: the loop over the gates is empty and every gradient is None |
| C59 | Pytree flattening round-trips gates and composites | proved | `C59_pytree_round_trip_of_gates` (A1), `C59_pytree_round_trip_of_composites` (A1), `C59_pytree_round_trip_of_noise` (-), `C59_pytree_round_trip_of_density_matrices` (-) | any nesting of OpSequence, Add, Observable, Scale; arrays inside a DensityMatrix are compared by value |
| C60 | Pytree flattening round-trips circuits | partial | `C60_circuit_rebuilt_in_the_order_returned_partial` (-), `C60_pytree_round_trip_of_circuits_refuted` (-) | false of the code: tree_flatten returns (aux_data, children) while JAX expects (children, aux_data); the rebuilt object differs for every circuit (proved) |
| C61 | Pytree flattening round-trips Hamiltonian evolution | partial | `C61_pytree_round_trip_of_unshifted_evolution_partial` (A1), `C61_pytree_round_trip_of_evolution_refuted` (A1) | false of the code when the shift is not 0 (it is lost, proved for every such object); proved for shift 0 |
| C62 | Sparse/dense conversion of gates and sequences round-trips | proved | `C62_conversion_changes_only_the_flag` (A1), `C62_dense_sparse_dense` (A1) |  |
| C63 | Sparse/dense conversion preserves every operation | partial | `C63_conversion_of_simple_nestings_partial` (A1), `C63_conversion_refuted` (A1) | false of the code: Scale over a sequence keeps only its first gate, and the feature parameters of every circuit are dropped (proved); proved for Scale of a gate (or of a Scale) and circuits without feature parameters |
| C64 | Variational parameters are the circuit's named parameters minus fparams | proved | `C64_variational_parameters_of_a_circuit` (-), `C64_parameters_of_a_constructed_circuit` (-), `C64_parameters_of_a_sequence` (-) |  |
| C65 | Constant angles are not variational parameters | partial | `C65_names_and_numbers_partial` (-), `C65_constant_angle_refuted` (-) | false of the code: a numeric angle contributes str(angle) (proved for every such gate); the exact content of vparams is proved for all circuits |
| C66 | hea builds the documented ansatz | proved | `C66_ansatz_structure` (A1), `C66_ansatz_parameters` (A1), `C66_ansatz_applicable` (A1 A2 A3) | uuid4 is an oracle: the i-th call returns uuid i; the names are distinct when uuid is injective; rotations among RX, RY, RZ, PHASE |
| C67 | hea works for one qubit | partial | `C67_one_qubit_rotations_partial` (A1 A2 A3), `C67_one_qubit_ansatz_refuted` (A1 A2 A3) | false of the code: hea(1, L) contains NOT(0, 0), which raises on every one-qubit state (proved); the rotations are applicable |
| C68 | Control qubits may be given as NumPy integers | partial | `C68_numpy_control_beside_int_partial` (A1 A2 A3), `C68_numpy_control_ignored_refuted` (A1 A2 A3), `C68_numpy_control_refuted` (A1 A2 A3) | false of the code: a gate controlled only by np.int64 acts uncontrolled (proved for every gate and state); proved when at least one control is a Python int |
| C69 | Primitive.n_qubits counts the qubits of the gate | partial | `C69_number_of_qubits_partial` (-), `C69_number_of_qubits_refuted` (A1) | false of the code: 2 for X(q) with the default control, 2 for Toffoli, 1 for SWAP without control (proved); proved for one target with control None or one int control |
| C70 | qubit_support is the sorted set of qubits a gate touches | proved | `C70_support_of_a_gate` (-), `C70_support_of_a_composite` (-) | controls None, (None,) or Python ints (see C68 for np.int64); the iteration order of sets is arbitrary |
| C71 | Calling without a state starts from the zero state | partial | `C71_call_without_state_partial` (A1 A2 A3), `C71_call_without_state_refuted` (A1 A2 A3) | false of the code when the first gate does not touch exactly the qubits 0..k-1: X(q)() raises for every q > 0; proved otherwise |
| C72 | Basis states are normalised one-hot arrays | proved | `C72_product_state` (A1 A3), `C72_zero_state` (A1 A3), `C72_uniform_state` (A1 A2 A3), `C72_random_state` (A1 A2 A4 A3) | uniform draws in the open interval (0, 1); floats idealised |
| C73 | overlap is the fidelity | partial | `C73_overlap_exact_partial` (A1 A3), `C73_overlap_of_real_inner_product_partial` (A1 A3), `C73_overlap_refuted` (A1 A3) | false of the code: overlap is the real part of the squared inner product, -1 for a state and its multiple by i (proved for every normalised state); equal to the squared modulus exactly when the inner product is real (proved) |
| C74 | is_normalized accepts exactly normalised states | proved | `C74_is_normalized` (A1 A3) |  |
| C75 | Missing parameters raise KeyError | proved | `C75_missing_parameter_raises` (A1 A2 A3), `C75_missing_parameter_in_expectation` (A1 A2 A3), `C75_unused_values_in_apply_gates` (A1 A2 A3), `C75_unused_values_in_run` (A1 A2 A3), `C75_unused_values_in_expectation` (A1 A2 A3) | gates of GateSpec.v (everything but Hamiltonian evolution and the SWAP roots) for the KeyError part; no restriction for the second part |
| C76 | Hamiltonian evolution is unitary and additive in time | proved | `C76_hamiltonian_evolution` (A1 A2 A4 A3) | the contract of jax.scipy.linalg.expm is the hypothesis exponential_of |
| C77 | Fresh composites keep their operations | partial | `C77_fresh_sums_of_gates_partial` (A1 A2 A3), `C77_fresh_sums_refuted` (A1 A2 A3) | false of the code for an Add that contains a sequence; proved for (nested) sums of gates |
| C78 | Density-matrix forward of composites | partial | `C78_single_term_on_a_density_matrix_partial` (A1 A2 A3), `C78_density_matrix_composites_refuted` (A1 A2 A3) | false of the code: TypeError for every Add with two gates and every Scale of a gate (proved); single terms work (proved) |
| C79 | Finite-shot estimates concentrate around the expectation value | proved | `C79_finite_shots_variance` (A1 A2 A3), `C79_fair_draws_exist` (A1 A3) | idealised: floats exact; the generator is a random function on a finite probability space, fair and pairwise independent; such spaces exist for every distribution (proved) |
| C80 | Finite-shot GPSR gradients are unbiased | proved | `C80_finite_shots_gradient_unbiased` (A1 A2 A3), `C80_finite_shots_gradient_estimates_derivative` (A1 A2 A3) | gates without PHASE (for which the jitted call raises, C56); finite probability spaces of fair generators; they exist (c80_fair_exist, used in the example) |
| C81 | Light cone: gates that cannot influence the measured qubits are invisible | proved | `C81_light_cone` (A1 A2 A3) | gates of the library with accepted noise, exact modes; the removed gates are any subset outside the cone, as long as one gate is left |
| C82 | Circuits are linear in the initial state | proved | `C82_superposition` (A1 A2 A3), `C82_mixture` (A1 A2 A3), `C82_mixture_expectation` (A1 A2 A3) | vectors for noiseless circuits; density matrices for all |
| C83 | States with the same density matrix are indistinguishable | proved | `C83_same_density_same_observations` (A1 A2 A3), `C83_global_phase` (A1 A2 A3), `C83_density_mat` (A1) |  |
| C84 | Circuits compose | proved | `C84_composition` (A1 A2 A3) |  |
| C85 | Expectations are bounded by the coefficients of the observable | proved | `C85_expectation_bound` (A1 A2 A3) | floats idealised; observables whose terms are sequences of library gates |
| C86 | Idle qubits do not matter | proved | `C86_reduced_state` (A1 A2 A3), `C86_product_state` (A1 A3) | the idle qubits are the last ones; C87 moves them elsewhere |
| C87 | Qubit labels do not matter | proved | `C87_relabelling` (A1 A2 A3) | for density matrices the support of the renamed observable must iterate in increasing order (otherwise C16's finding applies) |
| C88 | Full turns of an angle | proved | `C88_full_turn` (A1 A2 A3), `C88_double_turn` (A1 A2 A3), `C88_controlled_rotations_see_a_full_turn` (A1 A2 A3) | the third theorem shows that the exclusion of controlled rotations is necessary |
| C89 | The order of controls and of the targets of SWAP is irrelevant | proved | `C89_control_order_and_swap` (A1 A2 A3) |  |
| C90 | An empty noise tuple is no noise | partial | `C90_empty_noise_observations_partial` (A1 A2 A3), `C90_empty_noise_refuted` (A1 A2 A3) | false of the code for the kind of output: run returns a DensityMatrix (proved for every such gate and state vector); expectations, samples and the state itself agree (proved) |
| C91 | Observables of a list are evaluated independently | proved | `C91_observables_are_independent` (A1 A2 A3) | AD, GPSR and ADJOINT without shots; no assumption on the circuit, state or observables |
| C92 | Reported eigenvalues and spectral gap are those of the gate's generator | partial | `C92_generators` (A1 A2 A3), `C92_eigenvalues_partial` (A1 A2 A3), `C92_spectral_gap_partial` (A1 A2 A3), `C92_many_controls_refuted` (A1 A2 A3), `C92_phase_refuted` (A1 A3) | proved for dense RX, RY, RZ with at most one control (gap: any controls); refuted for two or more controls (len(self.control) is always 1, so two zeros are added instead of 2^(k+1)-2) and for PHASE (reports [1, 1] and gap 0); sparse gates not modelled |
| C93 | Noise changes Pauli expectations by the textbook factors | proved | `C93_noise_attenuates` (A1 A2 A3) | the noise is added to the end of the noise tuple of the last gate; one target; floats idealised |
| C94 | Samples and expectations describe the same state | proved | `C94_samples_give_Z_expectation` (A1 A2 A3), `C94_samples_give_diagonal_expectations` (A1 A2 A3) | sample passes the constant key PRNGKey(0): key 0 of the oracle; finite probability spaces of fair generators |
| C95 | The tensor of a sparse operation is the sparse form of the dense tensor | partial | `C95_sparse_tensor_partial` (A1 A2 A3), `C95_sparse_products_fail` (A1 A2 A3), `C95_sparse_products_refuted` (A1 A2 A3), `C95_sparse_observable_of_density` (A1 A2 A3) | false for products: the tensor of an OpSequence, Scale or QuantumCircuit of two or more sparse operations calls jnp.matmul on BCOO arrays, which raises TypeError (C95_sparse_products_fail says no such tensor exists, C95_sparse_products_refuted gives one whose dense form has a tensor); the partial theorem covers every other nesting; sparse observables cannot be evaluated on a DensityMatrix for the same reason (C95_sparse_observable_of_density) |
| C96 | Sparse programs compute the same as dense ones | proved | `C96_sparse_run` (A1 A2 A3), `C96_sparse_expectation` (A1 A2 A3), `C96_sparse_observable` (A1 A2 A3) | gates without noise (noisy gates on sparse states are refused, C33); the observable's operations contain no nested Observable; floats idealised |
| C97 | Sparse programs are never sampled | proved | `C97_sample_refuses_sparse` (A1 A2 A3), `C97_shots_refuse_sparse` (A1 A2 A3) | says that no result is returned; the exception is NotImplementedError unless an earlier step raises another one |
| C98 | Hamiltonian evolution solves the Schroedinger equation | proved | `C98_schroedinger_equation` (A1 A2 A4 A3) | the matrix exponential is an oracle with the contract exponential_of (derivative and value at 0); EvolExamples.v gives an instance |
| C99 | Hamiltonian evolution can be mixed with gates in circuits | proved | `C99_run_hybrid_circuit` (A1 A2 A4 A3), `C99_run_hybrid_circuit_on_density_matrix` (A1 A2 A4 A3), `C99_dagger_undoes_hybrid_circuit` (A1 A2 A4 A3), `C99_expectation_of_hybrid_circuit` (A1 A2 A4 A3), `C99_density_matrix_expectation_of_hybrid_circuit` (A1 A2 A4 A3), `C99_sample_hybrid_circuit` (A1 A2 A4 A3) | dense gates without noise; the oracle contract of expm as in C98; one Hamiltonian per values dictionary, as in the code (the names hamiltonian and time_evolution are fixed) |
| C100 | Noise channels obey the textbook algebra | proved | `C100_noise_laws` (A1 A2 A3) | fifteen identities, listed in NoiseLawSpec.v (noise_law); one-qubit targets as the code requires for noise; floats idealised |
| C101 | Pauli noise is a random Pauli error | proved | `C101_pauli_noise_is_random_pauli_errors` (A1 A2 A3) | AD and GPSR without shots; the four Pauli-type channels |
| C102 | Circuit identities hold in any context | proved | `C102_circuit_identities` (A1 A2 A3) | 27 identities, listed in CircuitLawSpec.v (same_circuit), each with the same controls on both sides; dense gates with fixed angles; the replaced part is noiseless, its surroundings arbitrary; floats idealised |
| C103 | A global phase cannot be observed | proved | `C103_identities_up_to_phase` (A1 A2 A3) | nine identities, listed in CircuitLawSpec.v (same_up_to_phase), without controls, where the phase is global; expectations in AD and GPSR mode without shots |
| C104 | Expectations are trigonometric polynomials of every parameter | proved | `C104_expectation_is_a_trigonometric_polynomial` (A1 A2 A3), `C104_expectation_is_periodic` (A1 A2 A3) | observables without the parameter under study in the sense that their operator is the same at all its values; AD and GPSR without shots; floats idealised |
| C105 | Expectations are differentiable in every parameter | proved | `C105_expectation_is_differentiable` (A1 A2 A3) | existence of the derivative of the value the code computes; that JAX's autodiff returns it is the trusted contract of JAX |
| C106 | Second derivatives through the GPSR rule are exact | proved | `C106_gpsr_hessian_is_the_second_derivative` (A1 A2 A3) | named gates are uncontrolled RX, RY, RZ (for controlled rotations and PHASE the first derivative is already wrong, C54); without repetition, or with every key of the values used by some gate; differentiating a custom_jvp rule applies the rule again to its inner calls (semantics of jax.custom_jvp, modelled in GpsrSecond.v); names drawn by uuid4 are distinct; floats idealised |
| C107 | The hardware-efficient ansatz can be trained with the GPSR rule | proved | `C107_ansatz_gradients_and_hessians` (A1 A2 A3) | n >= 2 (for one qubit the ansatz cannot be applied, C67); rotations among RX, RY, RZ; uuid4 names distinct; observables not depending on the values; floats idealised |
| C108 | Derivatives of any order through the GPSR rule are exact | proved | `C108_gpsr_derivatives_of_any_order` (A1 A2 A3) | named gates are uncontrolled RX, RY, RZ; without repetition, or with every key of the values used by some gate; the model returns the tangent of the highest order only; semantics of jax.custom_jvp as in C106; names drawn by uuid4 are distinct; floats idealised |
| C109 | The variational principle holds | proved | `C109_variational_principle` (A1 A2 A3), `C109_minimum_at_ground_states` (A1 A2 A3), `C109_variational_principle_with_shots` (A1 A2 A3) | AD and GPSR modes; with shots, one observable and the contracts of eigh and of the generator (ShotsSpec.v, SampleSpec.v); floats idealised |
| C110 | Density matrices are mixtures of state vectors, for every observation | proved | `C110_density_matrices_are_mixtures` (A1 A2 A3), `C110_expectation_of_a_mixture` (A1 A2 A3), `C110_outputs_are_mixtures` (A1 A2 A3) | existence of the mixture is proved constructively from positivity (pivoting); AD and GPSR modes without shots; observables that the density-matrix path can read (density_ready) |
| C111 | Pauli-string Hamiltonians are evaluated term by term | proved | `C111_pauli_hamiltonian` (A1 A2 A3), `C111_pauli_hamiltonian_is_readable` (A1 A2 A3), `C111_pauli_hamiltonian_is_hermitian` (A1 A3), `C111_pauli_energy_bound` (A1 A2 A3), `C111_pauli_hamiltonian_with_shots` (A1 A2 A3) | density matrices: Python's iteration order of the set of qubits must be increasing (as in C41); shots: contracts of eigh/inv and of the generator (ShotsSpec.v) |
| C112 | The arguments of the gate constructors take effect | proved | `C112_constructor_arguments_take_effect` (A1 A2 A3) | dense gates (sparse=False; see C33 and C34 for sparse ones); np.int64 controls are excluded (see C68); floats idealised |
| C113 | Hamiltonian evolution has its closed forms | proved | `C113_evolution_under_an_involution` (A1 A2 A4 A3), `C113_pauli_evolution_is_rotation` (A1 A2 A4 A3), `C113_commuting_hamiltonians` (A1 A2 A4 A3), `C113_ising_interaction` (A1 A2 A4 A3) | the matrix exponential is an oracle with the contract exponential_of (as in C98); dense gates; in circuits the surrounding gates are library gates without noise and evolutions; floats idealised |
| C114 | Parameter names are only names | proved | `C114_parameter_names_are_only_names` (A1 A2 A3) | real-valued parameters; for expectation the values must not be split into circuit and observable parts (flat_values); the gradients returned are dictionaries keyed by the names and are not compared here |
| C115 | Inverse circuits undo circuits | proved | `C115_inverse_circuit_undoes` (A1 A2 A3), `C115_inverse_parts_cancel` (A1 A2 A3), `C115_uncomputing_measures_the_fidelity` (A1 A2 A3) | dense gates without noise in the part that is undone; the fidelity is stated for state vectors; floats idealised |
| C116 | Gates can be moved from the end of the circuit into the observable | proved | `C116_gates_move_into_the_observable` (A1 A2 A3), `C116_pauli_strings_are_measured_by_parities` (A1 A2 A3) | AD and GPSR modes without shots; density matrices: the moved observables must have an increasing support (as in C41); the gates moved are dense and without noise, the rest of the circuit may be noisy; at least one gate stays in the circuit |
| C117 | Qubits that never interact are independent | proved | `C117_expectations_multiply` (A1 A2 A3), `C117_outcomes_are_independent` (A1 A2 A3) | AD and GPSR modes without shots; the operation on the register is hermitian; density matrices: the observables must have an increasing support (as in C41) |
| C118 | Small changes of angles and small noise change expectations little | proved | `C118_small_changes_of_angles` (A1 A2 A4 A3), `C118_gradients_are_bounded` (A1 A2 A4 A3), `C118_small_noise` (A1 A2 A3) | AD and GPSR modes without shots; density matrices: the observables must have an increasing support (as in C41) |
| C119 | Sampled frequencies estimate the probabilities of outcomes | proved | `C119_frequencies_estimate_probabilities` (A1 A2 A3) | the random generator is an oracle; fairness and independence of its draws are hypotheses (C79_fair_draws_exist gives instances); sample passes the constant key PRNGKey(0): key 0 of the oracle; floats idealised |
| C120 | Outcomes on a register cannot be influenced from outside its light cone | proved | `C120_outcomes_have_a_light_cone` (A1 A2 A3), `C120_no_signalling` (A1 A2 A3) | dense gates; C81 says the same of expectations |
| C121 | One-qubit gates act on each qubit separately; textbook circuits prepare their states for any number of qubits | proved | `C121_qubits_separately` (A1 A2 A3), `C121_hadamard_transform` (A1 A2 A3), `C121_uniform_superposition` (A1 A2 A3), `C121_basis_states` (A1 A2 A3), `C121_ghz` (A1 A2 A3), `C121_bernstein_vazirani` (A1 A2 A3) | dense, noiseless gates on state vectors |
| C122 | Finite-shot parameter-shift derivatives, forward and backward, are unbiased and concentrate | proved | `C122_finite_shots_jvp_concentrates` (A1 A2 A3), `C122_finite_shots_gradient_concentrates` (A1 A2 A3) | dense gates; jax.random is a random choice of draws with fair and independent shots at each key; draws at different keys may be correlated in any way |
| C123 | Negative qubit indices count from the last qubit | partial | `C123_state_vectors_partial` (A1 A2 A3), `C123_bad_indices_raise` (A1 A2 A3), `C123_non_negative_indices` (A1 A2 A3), `C123_density_matrices` (A1 A2 A3), `C123_density_matrices_refuted` (A1 A2 A3), `C123_grouping_refuted` (A1 A2 A3), `C123_noise_refuted` (A1 A2 A3) | Proved for noiseless, ungrouped dense circuits on state vectors, including the errors. False otherwise, with the exact behaviour proved: on a density matrix a gate with a negative index acts on the first qubits or raises TypeError; grouping sorts by the integers and may exchange gates on the same qubit; a noisy gate with a negative target raises. Dense gates and states; integer tuples as controls. |
| C124 | Two programs that agree at enough parameter values agree at all of them | proved | `C124_agreement_on_a_grid_is_agreement` (A1 A2 A3), `C124_fewer_values_are_not_enough` (A1 A2 A3) | Uses C104: an expectation is a trigonometric polynomial in each parameter, whose degree is the number of uses. A nonzero trigonometric polynomial of degree m has at most 2m zeros in one turn. |
| C125 | Circuits do not make states easier to tell apart | proved | `C125_close_amplitudes` (A1 A2 A3), `C125_circuits_do_not_amplify_differences` (A1 A2 A3), `C125_outcome_probabilities_stay_close` (A1 A2 A3), `C125_expectations_stay_close` (A1 A2 A3) | The condition on the inputs says, for physical states, that their trace distance is at most eps. The theorem would fail if a step did not preserve the trace or the positivity of density matrices. |
| C126 | Gates that print the same do the same | proved | `C126_equal_text_equal_effect` (A1 A2 A3), `C126_noise_instances_are_printed_completely` (-), `C126_noise_of_a_gate_is_not_printed` (A1 A2 A3), `C126_names_can_look_like_numbers` (A1 A2 A3) | How Python prints floats and NumPy integers is an argument of the model (a printer). That floats print differently is asked only of the numbers of the two gates. |
| C127 | Rounding errors add up at most linearly | proved | `C127_errors_add_up` (A1 A2 A3), `C127_outcome_probabilities_of_rounded_states` (A1 A2 A3), `C127_expectations_of_rounded_states` (A1 A2 A3) | The size of the error made in one step is a hypothesis: floating point arithmetic itself is not modelled. The theorem would fail if a step of the modelled program were not an isometry, since errors would then grow faster. |
| C128 | Control qubits are only read; measurements may be deferred | proved | `C128_control_qubits_keep_their_distribution` (A1 A2 A3), `C128_reading_a_qubit_later_changes_nothing` (A1 A2 A3), `C128_measurements_may_be_deferred` (A1 A2 A3) | Event probabilities are those of the state returned by run; C38 and C119 connect them to sample. |
| C129 | The forward rule of GPSR is linear in the tangents | proved | `C129_forward_rule_is_linear` (A1 A2 A3), `C129_forward_rule_with_shots_is_linear` (A1 A2 A3) | C52 and C122 say what the derivative is, for rotations; this claim covers every circuit on which the rule returns. |
| C130 | Overlaps and purity | proved | `C130_noiseless_circuits_preserve_overlaps` (A1 A2 A3), `C130_overlap_of_vectors_is_the_fidelity` (A1 A3), `C130_mixing_noise_does_not_purify` (A1 A2 A3), `C130_purity_is_between` (A1 A2 A3), `C130_maximally_mixed_state_is_fixed` (A1 A2 A3) | Exact reals. |
| C131 | Expectations are polynomials in the error probability; zero-noise extrapolation is exact | proved | `C131_expectations_are_polynomials_in_the_error_probability` (A1 A2 A3), `C131_outcome_probabilities_are_polynomials` (A1 A2 A3), `C131_extrapolation_is_exact` (A1 A2 A3) | Damping rates are excluded: amplitude and phase damping depend on the square root of 1 - gamma. |
| C132 | Clifford circuits: Pauli expectations are -1, 0 or 1 and possible outcomes are equally likely | proved | `C132_pauli_expectations_of_clifford_circuits` (A1 A2 A3), `C132_outcome_probabilities_of_clifford_circuits` (A1 A2 A3), `C132_outcomes_of_clifford_circuits_are_equally_likely` (A1 A2 A3), `C132_outcomes_of_clifford_circuits_are_closed_under_sums` (A1 A2 A3), `C132_one_qubit_of_a_clifford_circuit` (A1 A2 A3) | An example shows that a rotation gate violates it, so the restriction to these gates is needed. |
