{
 "claims": [
  {
   "property": "C01",
   "status": "proved",
   "theorems": [
    "C01_apply_operator_textbook"
   ],
   "note": ""
  },
  {
   "property": "C02",
   "status": "proved",
   "theorems": [
    "C02_apply_operator_raises",
    "C02_none_among_controls_raises"
   ],
   "note": "for 2^k x 2^k matrices and natural-number qubit indices"
  },
  {
   "property": "C03",
   "status": "proved",
   "theorems": [
    "C03_apply_operator_linear"
   ],
   "note": ""
  },
  {
   "property": "C04",
   "status": "proved",
   "theorems": [
    "C04_unitary_steps_preserve_inner_products",
    "C04_circuits_preserve_inner_products"
   ],
   "note": ""
  },
  {
   "property": "C05",
   "status": "proved",
   "theorems": [
    "C05_dagger_undoes_gate",
    "C05_dagger_undoes_circuit",
    "C05_dagger_undoes_circuit_on_density_matrices"
   ],
   "note": ""
  },
  {
   "property": "C06",
   "status": "proved",
   "theorems": [
    "C06_density_matrix_evolution",
    "C06_operator_is_textbook_action"
   ],
   "note": ""
  },
  {
   "property": "C07",
   "status": "proved",
   "theorems": [
    "C07_state_vector_and_density_matrix_agree"
   ],
   "note": ""
  },
  {
   "property": "C08",
   "status": "proved",
   "theorems": [
    "C08_unitary_preserves_density_matrix",
    "C08_circuits_preserve_density_matrix"
   ],
   "note": ""
  },
  {
   "property": "C09",
   "status": "proved",
   "theorems": [
    "C09_disjoint_gates_commute"
   ],
   "note": ""
  },
  {
   "property": "C10",
   "status": "proved",
   "theorems": [
    "C10_merging_does_not_change_the_result",
    "C10_gates_are_applied_one_after_the_other"
   ],
   "note": "gates may be noisy; JACOBIAN for parametric gates only (others have no jacobian attribute)"
  },
  {
   "property": "C11",
   "status": "proved",
   "theorems": [
    "C11_grouping_does_not_change_the_result",
    "C11_single_qubit_gates_are_groupable",
    "C11_grouping_reorders"
   ],
   "note": "uncontrolled gates with pairwise equal or disjoint target tuples, anything controlled stays in place; noiseless or with noise the library accepts (noise it rejects raises either way)"
  },
  {
   "property": "C12",
   "status": "partial",
   "theorems": [
    "C12_grouping_multi_qubit_gates_refuted",
    "C12_grouping_applies_the_target_order_partial",
    "C12_grouping_ordered_gates_partial"
   ],
   "note": "false of the code: counterexample X(1); SWAP(0,1) on |00>; proved for every list of gates (noise and several targets included) in which, between controlled gates, gates that share a qubit come in the order of their target tuples; for every list at all the result is proved to be that of the ungrouped list in which each run of uncontrolled gates is stably ordered by target tuple"
  },
  {
   "property": "C13",
   "status": "partial",
   "theorems": [
    "C13_run_of_empty_circuit_partial",
    "C13_apply_gates_of_empty_list_refuted",
    "C13_expectation_of_empty_circuit_refuted"
   ],
   "note": "run on a circuit without gates is the identity (proved); apply_gates on an empty list and expectation of an empty circuit raise TypeError (proved), so the full statement is false of the code"
  },
  {
   "property": "C14",
   "status": "proved",
   "theorems": [
    "C14_expand_operator_pads_with_identities",
    "C14_expand_operator_raises"
   ],
   "note": ""
  },
  {
   "property": "C15",
   "status": "proved",
   "theorems": [
    "C15_permute_basis_inverse",
    "C15_permute_basis_reorders_the_qubits",
    "C15_sparse_tensors_are_permuted_alike"
   ],
   "note": ""
  },
  {
   "property": "C16",
   "status": "proved",
   "theorems": [
    "C16_tensor_is_action",
    "C16_tensor_over_its_own_qubits",
    "C16_tensor_over_some_qubits"
   ],
   "note": "for full_support None, all qubits in any order, and every set of qubits that contains those of the gate"
  },
  {
   "property": "C17",
   "status": "partial",
   "theorems": [
    "C17_library_tensor_is_action_partial",
    "C17_any_target_order_refuted",
    "C17_tensor_over_its_own_qubits",
    "C17_tensor_of_evolution_sorts_the_targets"
   ],
   "note": "proved for the gates of the library (SWAP in any target order), and for every uncontrolled gate when full_support is None; false of the code for HamiltonianEvolution((1,0)) with a full_support (counterexample proved, given the contract of expm): there the tensor is exactly that of the evolution with sorted targets"
  },
  {
   "property": "C18",
   "status": "partial",
   "theorems": [
    "C18_tensor_is_reversed_action_partial",
    "C18_commuting_tensor_is_action_partial",
    "C18_tensor_is_action_refuted"
   ],
   "note": "false of the code: the tensor of a sequence is the matrix of the reversed sequence (proved), which agrees when the operations commute (proved); counterexample X;Z"
  },
  {
   "property": "C19",
   "status": "proved",
   "theorems": [
    "C19_add_scale_tensors",
    "C19_tensors_over_some_qubits",
    "C19_tensors_over_their_own_qubits"
   ],
   "note": "for nests of Add and Scale (of a single operation) over gates, with full_support None, all qubits, or any set of qubits that contains those of the operations; Scale of a sequence is C45"
  },
  {
   "property": "C20",
   "status": "proved",
   "theorems": [
    "C20_library_gates_are_unitary",
    "C20_pauli_gates_are_hermitian_involutions"
   ],
   "note": ""
  },
  {
   "property": "C21",
   "status": "proved",
   "theorems": [
    "C21_rotations_one_parameter_group"
   ],
   "note": ""
  },
  {
   "property": "C22",
   "status": "partial",
   "theorems": [
    "C22_constructors_applicable_partial",
    "C22_constructors_applicable_refuted"
   ],
   "note": "false of the code: SQRTSWAP, ISWAP, ISQRTSWAP raise KeyError when applied (proved)"
  },
  {
   "property": "C23",
   "status": "partial",
   "theorems": [
    "C23_jacobian_is_derivative_partial",
    "C23_jacobian_is_derivative_refuted",
    "C23_rotation_jacobian_partial"
   ],
   "note": "false of the code for RX, RY, RZ: there it is the derivative exactly at the angles t with sin(t/2) = 0 (proved); proved for PHASE"
  },
  {
   "property": "C24",
   "status": "partial",
   "theorems": [
    "C24_jacobian_application_partial",
    "C24_jacobian_application_refuted",
    "C24_sparse_rotations_have_no_jacobian",
    "C24_fixed_gates_have_no_jacobian",
    "C24_jacobian_of_controlled_phase_partial"
   ],
   "note": "false of the code for controlled gates (counterexample proved); proved for uncontrolled PHASE; for PHASE with any controls the exact result is proved: the derivative where the controls are all 1, the input amplitude (instead of 0) elsewhere; rotations fail by C23; sparse rotations raise NotImplementedError, and gates without an angle AttributeError"
  },
  {
   "property": "C25",
   "status": "proved",
   "theorems": [
    "C25_kraus_trace_preserving"
   ],
   "note": "exact real arithmetic"
  },
  {
   "property": "C26",
   "status": "proved",
   "theorems": [
    "C26_valid_probability_accepted",
    "C26_invalid_probability_rejected"
   ],
   "note": "for parameters of the right type and arity (well_typed)"
  },
  {
   "property": "C27",
   "status": "proved",
   "theorems": [
    "C27_channels_as_documented"
   ],
   "note": ""
  },
  {
   "property": "C28",
   "status": "proved",
   "theorems": [
    "C28_noisy_circuit_on_density_matrix",
    "C28_noisy_circuit_on_state_vector",
    "C28_noisy_gate_on_density_matrix",
    "C28_noisy_gate_on_state_vector"
   ],
   "note": "lists run in the given order (group_gates=False); gates with one target qubit, any controls"
  },
  {
   "property": "C29",
   "status": "proved",
   "theorems": [
    "C29_noisy_evolution_of_density_matrix",
    "C29_noisy_evolution_of_state_vector"
   ],
   "note": ""
  },
  {
   "property": "C30",
   "status": "proved",
   "theorems": [
    "C30_zero_probability_on_density_matrix",
    "C30_zero_probability_on_state_vector"
   ],
   "note": "GeneralizedAmplitudeDamping is silent when the damping rate is 0"
  },
  {
   "property": "C31",
   "status": "partial",
   "theorems": [
    "C31_noise_on_two_targets_refuted",
    "C31_noise_on_controlled_gates_partial"
   ],
   "note": "false of the code: raises for every two-target gate and every accepted noise instance (proved); proved for one target and any controls"
  },
  {
   "property": "C32",
   "status": "partial",
   "theorems": [
    "C32_kraus_operator_partial",
    "C32_kraus_operator_refuted",
    "C32_any_targets_partial"
   ],
   "note": "proved for targets 0..m-1 in order (the only use inside the library); false of the code for target (1,) on two qubits (counterexample proved); C32_any_targets_partial gives the exact result for all targets (for one target q >= 1: qubit 1 of the rows and qubit 0 of the columns)"
  },
  {
   "property": "C33",
   "status": "proved",
   "theorems": [
    "C33_sparse_rejects_noise",
    "C33_noise_is_the_only_unsupported",
    "C33_sparse_runs_without_noise"
   ],
   "note": "states and gates as accepted by the library; the sparse jacobian of a rotation is outside (raises NotImplementedError without noise)"
  },
  {
   "property": "C34",
   "status": "proved",
   "theorems": [
    "C34_sparse_and_dense_agree",
    "C34_dense_gates_on_a_sparse_state",
    "C34_sparse_and_dense_gates_mixed"
   ],
   "note": "UNITARY and DAGGER operations; gates with explicit matrices (HamiltonianEvolution has no sparse matrix); any mixture of sparse and dense gates, on any state: a run that ends gives the dense result; a sparse matrix meeting a dense state raises TypeError"
  },
  {
   "property": "C35",
   "status": "proved",
   "theorems": [
    "C35_probabilities_of_a_state_vector"
   ],
   "note": ""
  },
  {
   "property": "C36",
   "status": "partial",
   "theorems": [
    "C36_probabilities_of_a_square_density_matrix_partial",
    "C36_probabilities_of_one_qubit_partial",
    "C36_probabilities_of_a_density_matrix_refuted"
   ],
   "note": "false of the code for two or more qubits in the [2,...,2] layout: the result has shape [2]*(2n-1) (proved for every n >= 2); the diagonal for one qubit and for square matrices (proved)"
  },
  {
   "property": "C37",
   "status": "proved",
   "theorems": [
    "C37_sample_rejects_fewer_than_one_shot",
    "C37_sample_returns_a_histogram"
   ],
   "note": "jax.random.choice is an oracle with the contract choice_contract; the number of qubits is at least 1"
  },
  {
   "property": "C38",
   "status": "proved",
   "theorems": [
    "C38_sample_draws_from_the_output_state",
    "C38_sample_draws_from_the_output_density_matrix",
    "C38_sample_draws_from_the_born_distribution",
    "C38_sample_draws_from_the_final_density_matrix"
   ],
   "note": "state vectors: circuits built from gates, Scale, Add, OpSequence, QuantumCircuit; density matrices and noisy gates: nested sequences of gates"
  },
  {
   "property": "C39",
   "status": "partial",
   "theorems": [
    "C39_sample_keeps_the_state_partial",
    "C39_sample_keeps_the_state_refuted"
   ],
   "note": "false of the code: a density matrix sampled with an empty circuit is reshaped in place (proved for every n >= 2); unchanged in all other cases (proved)"
  },
  {
   "property": "C40",
   "status": "proved",
   "theorems": [
    "C40_pure_and_density_matrix_expectations_agree"
   ],
   "note": "circuits are nested sequences of gates (noise allowed); observables are sums of scaled sums of gates whose qubit set is iterated in increasing order, as the property says"
  },
  {
   "property": "C41",
   "status": "partial",
   "theorems": [
    "C41_density_matrix_expectation_partial",
    "C41_set_order_refuted",
    "C41_any_set_order_partial"
   ],
   "note": "Re tr(O rho) proved when the qubit set of the observable is iterated in increasing order; false otherwise: C41_set_order_refuted gives, on every register and for every a < b iterated as b, a, a state and observable with the wrong sign; C41_any_set_order_partial gives the exact value for every order: the observable is read with its qubits permuted"
  },
  {
   "property": "C42",
   "status": "proved",
   "theorems": [
    "C42_expectation_is_the_mean",
    "C42_expectation_is_linear"
   ],
   "note": "circuits are nested sequences of noiseless gates; observables are sums of operations built from gates, Scale, Add, OpSequence"
  },
  {
   "property": "C43",
   "status": "partial",
   "theorems": [
    "C43_run_and_expectation_partial",
    "C43_scale_in_a_circuit_refuted",
    "C43_add_in_a_circuit_refuted",
    "C43_scaled_circuit_refuted",
    "C43_expectation_flattens_partial"
   ],
   "note": "proved for nested sequences of (noisy) gates; false for circuits with Scale or Add: expectation flattens the circuit and drops the factor, applies the summands one after the other, or raises AttributeError; C43_expectation_flattens_partial gives the exact result for every operation but Scale: the expectation of the plain sequence of all its gates"
  },
  {
   "property": "C44",
   "status": "proved",
   "theorems": [
    "C44_flattening_keeps_the_circuit"
   ],
   "note": "at least one gate (see C13 for none); gates may be noisy"
  },
  {
   "property": "C45",
   "status": "partial",
   "theorems": [
    "C45_scale_of_an_operation_partial",
    "C45_scale_of_a_list_partial",
    "C45_scale_of_a_sum_refuted",
    "C45_scale_flattens_partial"
   ],
   "note": "proved for gates, nested sequences of gates, Scale, and lists of operations; false for Add: Scale(Add([X, Z]), 1) applies Z after X; C45_scale_flattens_partial gives the exact result for every operation but Scale: the sequence of all its gates, scaled"
  },
  {
   "property": "C46",
   "status": "proved",
   "theorems": [
    "C46_rejected_calls",
    "C46_accepted_calls",
    "C46_accepted_calls_with_shots"
   ],
   "note": ""
  },
  {
   "property": "C47",
   "status": "partial",
   "theorems": [
    "C47_modes_agree_partial",
    "C47_gpsr_agrees_on_every_state_partial",
    "C47_adjoint_mode_with_noise_refuted"
   ],
   "note": "proved for noise-free circuits (dense or sparse state vectors); AD = GPSR also for density matrices and noisy circuits; false for noisy circuits in ADJOINT mode, which always raises"
  },
  {
   "property": "C48",
   "status": "partial",
   "theorems": [
    "C48_separate_values_in_other_modes_refuted",
    "C48_repeated_values_partial"
   ],
   "note": "false of the code: proved for AD without shots (C49); in ADJOINT and GPSR mode and with shots such a dictionary raises KeyError for a parametric circuit; ADJOINT and GPSR agree with AD when the names are repeated at the top level with the same values (proved)"
  },
  {
   "property": "C49",
   "status": "proved",
   "theorems": [
    "C49_separate_values_in_ad_mode"
   ],
   "note": "observables as in C40/C42"
  },
  {
   "property": "C50",
   "status": "proved",
   "theorems": [
    "C50_finite_shots_estimate_one_observable",
    "C50_finite_shots_unbiased_one_observable"
   ],
   "note": "jnp.linalg.eigh, jnp.linalg.inv and jax.random.choice are oracles: eigh and inv as described by diagonalised (ShotsSpec.v) at the observable's matrix, choice as described by choice_contract"
  },
  {
   "property": "C51",
   "status": "partial",
   "theorems": [
    "C51_finite_shots_common_eigenvectors_partial",
    "C51_finite_shots_unbiased_partial",
    "C51_finite_shots_other_observables_refuted"
   ],
   "note": "proved when the eigenvectors returned for the observables are the same up to order; false otherwise: Z and X on |0> give the estimator mean 1 for X (exact value 0)"
  },
  {
   "property": "C52",
   "status": "proved",
   "theorems": [
    "C52_gpsr_gradient_is_the_derivative"
   ],
   "note": "gates of GateSpec.v (with noise), state vectors or density matrices; the observables may use other parameters; reverse rule: circuits without PHASE gates (see C56)"
  },
  {
   "property": "C53",
   "status": "proved",
   "theorems": [
    "C53_gpsr_repeated_gradient_is_the_derivative"
   ],
   "note": "as C52; the temporary names are assumed distinct"
  },
  {
   "property": "C54",
   "status": "partial",
   "theorems": [
    "C54_gpsr_controlled_rotation_partial",
    "C54_gpsr_controlled_rotation_refuted",
    "C54_gpsr_error_formula_partial"
   ],
   "note": "false of the code in general: the GPSR gradient of a controlled rotation is wrong for a state with coherence between the control values; proved for states without such coherence, and the exact value GPSR returns in every case: the half-frequency part of the derivative is multiplied by sqrt 2"
  },
  {
   "property": "C55",
   "status": "partial",
   "theorems": [
    "C55_gpsr_unused_value_partial",
    "C55_gpsr_unused_value_refuted",
    "C55_gpsr_unused_value_error_refuted"
   ],
   "note": "proved when no name is used twice; false otherwise: an extra unused value changes the gradient of the others to a wrong one (two gates sharing a name), or makes both rules fail"
  },
  {
   "property": "C56",
   "status": "partial",
   "theorems": [
    "C56_gpsr_phase_partial",
    "C56_gpsr_phase_reverse_refuted",
    "C56_gpsr_shared_phase_refuted"
   ],
   "note": "proved for the forward rule when no name is shared; false otherwise: the reverse rule raises TypeError, and a shared PHASE parameter gives a wrong forward gradient"
  },
  {
   "property": "C57",
   "status": "proved",
   "theorems": [
    "C57_shifted_gate",
    "C57_altered_sequence"
   ],
   "note": ""
  },
  {
   "property": "C58",
   "status": "partial",
   "theorems": [
    "C58_adjoint_phase_step_partial",
    "C58_adjoint_no_gradient_refuted"
   ],
   "note": "proved for one step at an uncontrolled PHASE gate; false of the code: the loop over the gates is empty and every gradient is None"
  },
  {
   "property": "C59",
   "status": "proved",
   "theorems": [
    "C59_pytree_round_trip_of_gates",
    "C59_pytree_round_trip_of_composites",
    "C59_pytree_round_trip_of_noise",
    "C59_pytree_round_trip_of_density_matrices"
   ],
   "note": "any nesting of OpSequence, Add, Observable, Scale; arrays inside a DensityMatrix are compared by value"
  },
  {
   "property": "C60",
   "status": "partial",
   "theorems": [
    "C60_circuit_rebuilt_in_the_order_returned_partial",
    "C60_pytree_round_trip_of_circuits_refuted"
   ],
   "note": "false of the code: tree_flatten returns (aux_data, children) while JAX expects (children, aux_data); the rebuilt object differs for every circuit (proved)"
  },
  {
   "property": "C61",
   "status": "partial",
   "theorems": [
    "C61_pytree_round_trip_of_unshifted_evolution_partial",
    "C61_pytree_round_trip_of_evolution_refuted"
   ],
   "note": "false of the code when the shift is not 0 (it is lost, proved for every such object); proved for shift 0"
  },
  {
   "property": "C62",
   "status": "proved",
   "theorems": [
    "C62_conversion_changes_only_the_flag",
    "C62_dense_sparse_dense"
   ],
   "note": ""
  },
  {
   "property": "C63",
   "status": "partial",
   "theorems": [
    "C63_conversion_of_simple_nestings_partial",
    "C63_conversion_refuted"
   ],
   "note": "false of the code: Scale over a sequence keeps only its first gate, and the feature parameters of every circuit are dropped (proved); proved for Scale of a gate (or of a Scale) and circuits without feature parameters"
  },
  {
   "property": "C64",
   "status": "proved",
   "theorems": [
    "C64_variational_parameters_of_a_circuit",
    "C64_parameters_of_a_constructed_circuit",
    "C64_parameters_of_a_sequence"
   ],
   "note": ""
  },
  {
   "property": "C65",
   "status": "partial",
   "theorems": [
    "C65_names_and_numbers_partial",
    "C65_constant_angle_refuted"
   ],
   "note": "false of the code: a numeric angle contributes str(angle) (proved for every such gate); the exact content of vparams is proved for all circuits"
  },
  {
   "property": "C66",
   "status": "proved",
   "theorems": [
    "C66_ansatz_structure",
    "C66_ansatz_parameters",
    "C66_ansatz_applicable"
   ],
   "note": "uuid4 is an oracle: the i-th call returns uuid i; the names are distinct when uuid is injective; rotations among RX, RY, RZ, PHASE"
  },
  {
   "property": "C67",
   "status": "partial",
   "theorems": [
    "C67_one_qubit_rotations_partial",
    "C67_one_qubit_ansatz_refuted"
   ],
   "note": "false of the code: hea(1, L) contains NOT(0, 0), which raises on every one-qubit state (proved); the rotations are applicable"
  },
  {
   "property": "C68",
   "status": "partial",
   "theorems": [
    "C68_numpy_control_beside_int_partial",
    "C68_numpy_control_ignored_refuted",
    "C68_numpy_control_refuted"
   ],
   "note": "false of the code: a gate controlled only by np.int64 acts uncontrolled (proved for every gate and state); proved when at least one control is a Python int"
  },
  {
   "property": "C69",
   "status": "partial",
   "theorems": [
    "C69_number_of_qubits_partial",
    "C69_number_of_qubits_refuted"
   ],
   "note": "false of the code: 2 for X(q) with the default control, 2 for Toffoli, 1 for SWAP without control (proved); proved for one target with control None or one int control"
  },
  {
   "property": "C70",
   "status": "proved",
   "theorems": [
    "C70_support_of_a_gate",
    "C70_support_of_a_composite"
   ],
   "note": "controls None, (None,) or Python ints (see C68 for np.int64); the iteration order of sets is arbitrary"
  },
  {
   "property": "C71",
   "status": "partial",
   "theorems": [
    "C71_call_without_state_partial",
    "C71_call_without_state_refuted"
   ],
   "note": "false of the code when the first gate does not touch exactly the qubits 0..k-1: X(q)() raises for every q > 0; proved otherwise"
  },
  {
   "property": "C72",
   "status": "proved",
   "theorems": [
    "C72_product_state",
    "C72_zero_state",
    "C72_uniform_state",
    "C72_random_state"
   ],
   "note": "uniform draws in the open interval (0, 1); floats idealised"
  },
  {
   "property": "C73",
   "status": "partial",
   "theorems": [
    "C73_overlap_exact_partial",
    "C73_overlap_of_real_inner_product_partial",
    "C73_overlap_refuted"
   ],
   "note": "false of the code: overlap is the real part of the squared inner product, -1 for a state and its multiple by i (proved for every normalised state); equal to the squared modulus exactly when the inner product is real (proved)"
  },
  {
   "property": "C74",
   "status": "proved",
   "theorems": [
    "C74_is_normalized"
   ],
   "note": ""
  },
  {
   "property": "C75",
   "status": "proved",
   "theorems": [
    "C75_missing_parameter_raises",
    "C75_missing_parameter_in_expectation",
    "C75_unused_values_in_apply_gates",
    "C75_unused_values_in_run",
    "C75_unused_values_in_expectation"
   ],
   "note": "gates of GateSpec.v (everything but Hamiltonian evolution and the SWAP roots) for the KeyError part; no restriction for the second part"
  },
  {
   "property": "C76",
   "status": "proved",
   "theorems": [
    "C76_hamiltonian_evolution"
   ],
   "note": "the contract of jax.scipy.linalg.expm is the hypothesis exponential_of"
  },
  {
   "property": "C77",
   "status": "partial",
   "theorems": [
    "C77_fresh_sums_of_gates_partial",
    "C77_fresh_sums_refuted"
   ],
   "note": "false of the code for an Add that contains a sequence; proved for (nested) sums of gates"
  },
  {
   "property": "C78",
   "status": "partial",
   "theorems": [
    "C78_single_term_on_a_density_matrix_partial",
    "C78_density_matrix_composites_refuted"
   ],
   "note": "false of the code: TypeError for every Add with two gates and every Scale of a gate (proved); single terms work (proved)"
  },
  {
   "property": "C79",
   "status": "proved",
   "theorems": [
    "C79_finite_shots_variance",
    "C79_fair_draws_exist"
   ],
   "note": "idealised: floats exact; the generator is a random function on a finite probability space, fair and pairwise independent; such spaces exist for every distribution (proved)"
  },
  {
   "property": "C80",
   "status": "proved",
   "theorems": [
    "C80_finite_shots_gradient_unbiased",
    "C80_finite_shots_gradient_estimates_derivative"
   ],
   "note": "gates without PHASE (for which the jitted call raises, C56); finite probability spaces of fair generators; they exist (c80_fair_exist, used in the example)"
  },
  {
   "property": "C81",
   "status": "proved",
   "theorems": [
    "C81_light_cone"
   ],
   "note": "gates of the library with accepted noise, exact modes; the removed gates are any subset outside the cone, as long as one gate is left"
  },
  {
   "property": "C82",
   "status": "proved",
   "theorems": [
    "C82_superposition",
    "C82_mixture",
    "C82_mixture_expectation"
   ],
   "note": "vectors for noiseless circuits; density matrices for all"
  },
  {
   "property": "C83",
   "status": "proved",
   "theorems": [
    "C83_same_density_same_observations",
    "C83_global_phase",
    "C83_density_mat"
   ],
   "note": ""
  },
  {
   "property": "C84",
   "status": "proved",
   "theorems": [
    "C84_composition"
   ],
   "note": ""
  },
  {
   "property": "C85",
   "status": "proved",
   "theorems": [
    "C85_expectation_bound"
   ],
   "note": "floats idealised; observables whose terms are sequences of library gates"
  },
  {
   "property": "C86",
   "status": "proved",
   "theorems": [
    "C86_reduced_state",
    "C86_product_state"
   ],
   "note": "the idle qubits are the last ones; C87 moves them elsewhere"
  },
  {
   "property": "C87",
   "status": "proved",
   "theorems": [
    "C87_relabelling"
   ],
   "note": "for density matrices the support of the renamed observable must iterate in increasing order (otherwise C16's finding applies)"
  },
  {
   "property": "C88",
   "status": "proved",
   "theorems": [
    "C88_full_turn",
    "C88_double_turn",
    "C88_controlled_rotations_see_a_full_turn"
   ],
   "note": "the third theorem shows that the exclusion of controlled rotations is necessary"
  },
  {
   "property": "C89",
   "status": "proved",
   "theorems": [
    "C89_control_order_and_swap"
   ],
   "note": ""
  },
  {
   "property": "C90",
   "status": "partial",
   "theorems": [
    "C90_empty_noise_observations_partial",
    "C90_empty_noise_refuted"
   ],
   "note": "false of the code for the kind of output: run returns a DensityMatrix (proved for every such gate and state vector); expectations, samples and the state itself agree (proved)"
  },
  {
   "property": "C91",
   "status": "proved",
   "theorems": [
    "C91_observables_are_independent"
   ],
   "note": "AD, GPSR and ADJOINT without shots; no assumption on the circuit, state or observables"
  },
  {
   "property": "C92",
   "status": "partial",
   "theorems": [
    "C92_generators",
    "C92_eigenvalues_partial",
    "C92_spectral_gap_partial",
    "C92_many_controls_refuted",
    "C92_phase_refuted"
   ],
   "note": "proved for dense RX, RY, RZ with at most one control (gap: any controls); refuted for two or more controls (len(self.control) is always 1, so two zeros are added instead of 2^(k+1)-2) and for PHASE (reports [1, 1] and gap 0); sparse gates not modelled"
  },
  {
   "property": "C93",
   "status": "proved",
   "theorems": [
    "C93_noise_attenuates"
   ],
   "note": "the noise is added to the end of the noise tuple of the last gate; one target; floats idealised"
  },
  {
   "property": "C94",
   "status": "proved",
   "theorems": [
    "C94_samples_give_Z_expectation",
    "C94_samples_give_diagonal_expectations"
   ],
   "note": "sample passes the constant key PRNGKey(0): key 0 of the oracle; finite probability spaces of fair generators"
  },
  {
   "property": "C95",
   "status": "partial",
   "theorems": [
    "C95_sparse_tensor_partial",
    "C95_sparse_products_fail",
    "C95_sparse_products_refuted",
    "C95_sparse_observable_of_density"
   ],
   "note": "false for products: the tensor of an OpSequence, Scale or QuantumCircuit of two or more sparse operations calls jnp.matmul on BCOO arrays, which raises TypeError (C95_sparse_products_fail says no such tensor exists, C95_sparse_products_refuted gives one whose dense form has a tensor); the partial theorem covers every other nesting; sparse observables cannot be evaluated on a DensityMatrix for the same reason (C95_sparse_observable_of_density)"
  },
  {
   "property": "C96",
   "status": "proved",
   "theorems": [
    "C96_sparse_run",
    "C96_sparse_expectation",
    "C96_sparse_observable"
   ],
   "note": "gates without noise (noisy gates on sparse states are refused, C33); the observable's operations contain no nested Observable; floats idealised"
  },
  {
   "property": "C97",
   "status": "proved",
   "theorems": [
    "C97_sample_refuses_sparse",
    "C97_shots_refuse_sparse"
   ],
   "note": "says that no result is returned; the exception is NotImplementedError unless an earlier step raises another one"
  },
  {
   "property": "C98",
   "status": "proved",
   "theorems": [
    "C98_schroedinger_equation"
   ],
   "note": "the matrix exponential is an oracle with the contract exponential_of (derivative and value at 0); EvolExamples.v gives an instance"
  },
  {
   "property": "C99",
   "status": "proved",
   "theorems": [
    "C99_run_hybrid_circuit",
    "C99_run_hybrid_circuit_on_density_matrix",
    "C99_dagger_undoes_hybrid_circuit",
    "C99_expectation_of_hybrid_circuit",
    "C99_density_matrix_expectation_of_hybrid_circuit",
    "C99_sample_hybrid_circuit"
   ],
   "note": "dense gates without noise; the oracle contract of expm as in C98; one Hamiltonian per values dictionary, as in the code (the names hamiltonian and time_evolution are fixed)"
  },
  {
   "property": "C100",
   "status": "proved",
   "theorems": [
    "C100_noise_laws"
   ],
   "note": "fifteen identities, listed in NoiseLawSpec.v (noise_law); one-qubit targets as the code requires for noise; floats idealised"
  },
  {
   "property": "C101",
   "status": "proved",
   "theorems": [
    "C101_pauli_noise_is_random_pauli_errors"
   ],
   "note": "AD and GPSR without shots; the four Pauli-type channels"
  },
  {
   "property": "C102",
   "status": "proved",
   "theorems": [
    "C102_circuit_identities"
   ],
   "note": "27 identities, listed in CircuitLawSpec.v (same_circuit), each with the same controls on both sides; dense gates with fixed angles; the replaced part is noiseless, its surroundings arbitrary; floats idealised"
  },
  {
   "property": "C103",
   "status": "proved",
   "theorems": [
    "C103_identities_up_to_phase"
   ],
   "note": "nine identities, listed in CircuitLawSpec.v (same_up_to_phase), without controls, where the phase is global; expectations in AD and GPSR mode without shots"
  },
  {
   "property": "C104",
   "status": "proved",
   "theorems": [
    "C104_expectation_is_a_trigonometric_polynomial",
    "C104_expectation_is_periodic"
   ],
   "note": "observables without the parameter under study in the sense that their operator is the same at all its values; AD and GPSR without shots; floats idealised"
  },
  {
   "property": "C105",
   "status": "proved",
   "theorems": [
    "C105_expectation_is_differentiable"
   ],
   "note": "existence of the derivative of the value the code computes; that JAX's autodiff returns it is the trusted contract of JAX"
  },
  {
   "property": "C106",
   "status": "proved",
   "theorems": [
    "C106_gpsr_hessian_is_the_second_derivative"
   ],
   "note": "named gates are uncontrolled RX, RY, RZ (for controlled rotations and PHASE the first derivative is already wrong, C54); without repetition, or with every key of the values used by some gate; differentiating a custom_jvp rule applies the rule again to its inner calls (semantics of jax.custom_jvp, modelled in GpsrSecond.v); names drawn by uuid4 are distinct; floats idealised"
  },
  {
   "property": "C107",
   "status": "proved",
   "theorems": [
    "C107_ansatz_gradients_and_hessians"
   ],
   "note": "n >= 2 (for one qubit the ansatz cannot be applied, C67); rotations among RX, RY, RZ; uuid4 names distinct; observables not depending on the values; floats idealised"
  },
  {
   "property": "C108",
   "status": "proved",
   "theorems": [
    "C108_gpsr_derivatives_of_any_order"
   ],
   "note": "named gates are uncontrolled RX, RY, RZ; without repetition, or with every key of the values used by some gate; the model returns the tangent of the highest order only; semantics of jax.custom_jvp as in C106; names drawn by uuid4 are distinct; floats idealised"
  },
  {
   "property": "C109",
   "status": "proved",
   "theorems": [
    "C109_variational_principle",
    "C109_minimum_at_ground_states",
    "C109_variational_principle_with_shots"
   ],
   "note": "AD and GPSR modes; with shots, one observable and the contracts of eigh and of the generator (ShotsSpec.v, SampleSpec.v); floats idealised"
  },
  {
   "property": "C110",
   "status": "proved",
   "theorems": [
    "C110_density_matrices_are_mixtures",
    "C110_expectation_of_a_mixture",
    "C110_outputs_are_mixtures"
   ],
   "note": "existence of the mixture is proved constructively from positivity (pivoting); AD and GPSR modes without shots; observables that the density-matrix path can read (density_ready)"
  },
  {
   "property": "C111",
   "status": "proved",
   "theorems": [
    "C111_pauli_hamiltonian",
    "C111_pauli_hamiltonian_is_readable",
    "C111_pauli_hamiltonian_is_hermitian",
    "C111_pauli_energy_bound",
    "C111_pauli_hamiltonian_with_shots"
   ],
   "note": "density matrices: Python's iteration order of the set of qubits must be increasing (as in C41); shots: contracts of eigh/inv and of the generator (ShotsSpec.v)"
  },
  {
   "property": "C112",
   "status": "proved",
   "theorems": [
    "C112_constructor_arguments_take_effect"
   ],
   "note": "dense gates (sparse=False; see C33 and C34 for sparse ones); np.int64 controls are excluded (see C68); floats idealised"
  },
  {
   "property": "C113",
   "status": "proved",
   "theorems": [
    "C113_evolution_under_an_involution",
    "C113_pauli_evolution_is_rotation",
    "C113_commuting_hamiltonians",
    "C113_ising_interaction"
   ],
   "note": "the matrix exponential is an oracle with the contract exponential_of (as in C98); dense gates; in circuits the surrounding gates are library gates without noise and evolutions; floats idealised"
  },
  {
   "property": "C114",
   "status": "proved",
   "theorems": [
    "C114_parameter_names_are_only_names"
   ],
   "note": "real-valued parameters; for expectation the values must not be split into circuit and observable parts (flat_values); the gradients returned are dictionaries keyed by the names and are not compared here"
  },
  {
   "property": "C115",
   "status": "proved",
   "theorems": [
    "C115_inverse_circuit_undoes",
    "C115_inverse_parts_cancel",
    "C115_uncomputing_measures_the_fidelity"
   ],
   "note": "dense gates without noise in the part that is undone; the fidelity is stated for state vectors; floats idealised"
  },
  {
   "property": "C116",
   "status": "proved",
   "theorems": [
    "C116_gates_move_into_the_observable",
    "C116_pauli_strings_are_measured_by_parities"
   ],
   "note": "AD and GPSR modes without shots; density matrices: the moved observables must have an increasing support (as in C41); the gates moved are dense and without noise, the rest of the circuit may be noisy; at least one gate stays in the circuit"
  },
  {
   "property": "C117",
   "status": "proved",
   "theorems": [
    "C117_expectations_multiply",
    "C117_outcomes_are_independent"
   ],
   "note": "AD and GPSR modes without shots; the operation on the register is hermitian; density matrices: the observables must have an increasing support (as in C41)"
  },
  {
   "property": "C118",
   "status": "proved",
   "theorems": [
    "C118_small_changes_of_angles",
    "C118_gradients_are_bounded",
    "C118_small_noise"
   ],
   "note": "AD and GPSR modes without shots; density matrices: the observables must have an increasing support (as in C41)"
  },
  {
   "property": "C119",
   "status": "proved",
   "theorems": [
    "C119_frequencies_estimate_probabilities"
   ],
   "note": "the random generator is an oracle; fairness and independence of its draws are hypotheses (C79_fair_draws_exist gives instances); sample passes the constant key PRNGKey(0): key 0 of the oracle; floats idealised"
  },
  {
   "property": "C120",
   "status": "proved",
   "theorems": [
    "C120_outcomes_have_a_light_cone",
    "C120_no_signalling"
   ],
   "note": "dense gates; C81 says the same of expectations"
  },
  {
   "property": "C121",
   "status": "proved",
   "theorems": [
    "C121_qubits_separately",
    "C121_hadamard_transform",
    "C121_uniform_superposition",
    "C121_basis_states",
    "C121_ghz",
    "C121_bernstein_vazirani"
   ],
   "note": "dense, noiseless gates on state vectors"
  },
  {
   "property": "C122",
   "status": "proved",
   "theorems": [
    "C122_finite_shots_jvp_concentrates",
    "C122_finite_shots_gradient_concentrates"
   ],
   "note": "dense gates; jax.random is a random choice of draws with fair and independent shots at each key; draws at different keys may be correlated in any way"
  },
  {
   "property": "C123",
   "status": "partial",
   "theorems": [
    "C123_state_vectors_partial",
    "C123_bad_indices_raise",
    "C123_non_negative_indices",
    "C123_density_matrices",
    "C123_density_matrices_refuted",
    "C123_grouping_refuted",
    "C123_noise_refuted"
   ],
   "note": "Proved for noiseless, ungrouped dense circuits on state vectors, including the errors. False otherwise, with the exact behaviour proved: on a density matrix a gate with a negative index acts on the first qubits or raises TypeError; grouping sorts by the integers and may exchange gates on the same qubit; a noisy gate with a negative target raises. Dense gates and states; integer tuples as controls."
  },
  {
   "property": "C124",
   "status": "proved",
   "theorems": [
    "C124_agreement_on_a_grid_is_agreement",
    "C124_fewer_values_are_not_enough"
   ],
   "note": "Uses C104: an expectation is a trigonometric polynomial in each parameter, whose degree is the number of uses. A nonzero trigonometric polynomial of degree m has at most 2m zeros in one turn."
  },
  {
   "property": "C125",
   "status": "proved",
   "theorems": [
    "C125_close_amplitudes",
    "C125_circuits_do_not_amplify_differences",
    "C125_outcome_probabilities_stay_close",
    "C125_expectations_stay_close"
   ],
   "note": "The condition on the inputs says, for physical states, that their trace distance is at most eps. The theorem would fail if a step did not preserve the trace or the positivity of density matrices."
  },
  {
   "property": "C126",
   "status": "proved",
   "theorems": [
    "C126_equal_text_equal_effect",
    "C126_noise_instances_are_printed_completely",
    "C126_noise_of_a_gate_is_not_printed",
    "C126_names_can_look_like_numbers"
   ],
   "note": "How Python prints floats and NumPy integers is an argument of the model (a printer). That floats print differently is asked only of the numbers of the two gates."
  },
  {
   "property": "C127",
   "status": "proved",
   "theorems": [
    "C127_errors_add_up",
    "C127_outcome_probabilities_of_rounded_states",
    "C127_expectations_of_rounded_states"
   ],
   "note": "The size of the error made in one step is a hypothesis: floating point arithmetic itself is not modelled. The theorem would fail if a step of the modelled program were not an isometry, since errors would then grow faster."
  },
  {
   "property": "C128",
   "status": "proved",
   "theorems": [
    "C128_control_qubits_keep_their_distribution",
    "C128_reading_a_qubit_later_changes_nothing",
    "C128_measurements_may_be_deferred"
   ],
   "note": "Event probabilities are those of the state returned by run; C38 and C119 connect them to sample."
  },
  {
   "property": "C129",
   "status": "proved",
   "theorems": [
    "C129_forward_rule_is_linear",
    "C129_forward_rule_with_shots_is_linear"
   ],
   "note": "C52 and C122 say what the derivative is, for rotations; this claim covers every circuit on which the rule returns."
  },
  {
   "property": "C130",
   "status": "proved",
   "theorems": [
    "C130_noiseless_circuits_preserve_overlaps",
    "C130_overlap_of_vectors_is_the_fidelity",
    "C130_mixing_noise_does_not_purify",
    "C130_purity_is_between",
    "C130_maximally_mixed_state_is_fixed"
   ],
   "note": "Exact reals."
  },
  {
   "property": "C131",
   "status": "proved",
   "theorems": [
    "C131_expectations_are_polynomials_in_the_error_probability",
    "C131_outcome_probabilities_are_polynomials",
    "C131_extrapolation_is_exact"
   ],
   "note": "Damping rates are excluded: amplitude and phase damping depend on the square root of 1 - gamma."
  },
  {
   "property": "C132",
   "status": "proved",
   "theorems": [
    "C132_pauli_expectations_of_clifford_circuits",
    "C132_outcome_probabilities_of_clifford_circuits",
    "C132_outcomes_of_clifford_circuits_are_equally_likely",
    "C132_outcomes_of_clifford_circuits_are_closed_under_sums",
    "C132_one_qubit_of_a_clifford_circuit"
   ],
   "note": "An example shows that a rotation gate violates it, so the restriction to these gates is needed."
  }
 ]
}