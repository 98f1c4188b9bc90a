(** * C113: closed forms of Hamiltonian evolution.

    The vocabulary is in Spec.v, GateSpec.v, PropSpec.v, ExpectSpec.v and EvolSpec.v; [rotations] (GateThm.v) lists RX, RY, RZ
    with their Pauli matrices.  The contract of the matrix exponential is the hypothesis [exponential_of] (PropSpec.v).  Every
    theorem is followed by an example that meets its hypotheses. *)
From Coq Require Import String List Arith Bool ZArith Reals Lia Lra Permutation Sorted.
From Verif Require Import Cplx Py Ndarray OperatorUtils ApplyOperator Sparse Matrices Noise Gates Apply Composite Api
  Spec GateSpec PropSpec NoiseSpec ExpectSpec SampleSpec EvolSpec ApplyThm GateThm EvolThm EvolThm2 ExpectThm2 GpsrThm3 EvolThm3 Examples EvolExamples EvolExamples2.
Import ListNotations.
Local Open Scope nat_scope.

(** a Hamiltonian whose square is the identity, e.g. a Pauli string, on any qubits and with any controls *)
Theorem C113_evolution_under_an_involution : forall w n psi h ts c cs t,
    is_state n psi -> is_matrix (List.length ts) h -> hermitian (List.length ts) (entry h) ->
    keq (List.length ts) (kmul (List.length ts) (entry h) (entry h)) kid ->
    exponential_of (expm w) (List.length ts) (minus_i h) ->
    control_qubits (parse_control c) cs -> valid_qubits n (cs ++ ts) ->
    exists out, run w (OGate (HamiltonianEvolution (TTup ts) c)) (SDense psi) (evolution_values h t) = Ok (Some (SDense out)) /\ is_state n out /\
      forall x, In x (bitstrings n) ->
        amp out x = if all_ones (bits_at x cs)
                    then Cadd (Cmul (RtoC (cos t)) (amp psi x)) (Cmul (Cmul (Copp Ci) (RtoC (sin t))) (apply_kernel n (gate_op (entry h) [] ts) (amp psi) x))
                    else amp psi x.
Proof. exact c113_involution. Qed.
Print Assumptions C113_evolution_under_an_involution.
(** X for the time pi / 2 flips the qubit, up to the phase -i *)
Example C113_involution_example : exists out,
    run x_world (OGate (HamiltonianEvolution (TTup [1]) (IInt 0))) (SDense (basis [1; 0])) (evolution_values m_X (PI / 2)) = Ok (Some (SDense out)) /\
    amp out [1; 1] = Copp Ci.
Proof.
  destruct (C113_evolution_under_an_involution x_world 2 (basis [1; 0]) m_X [1] (IInt 0) [0] (PI / 2)) as (out & E & _ & A);
    [ex_side|apply m_X_matrix|apply m_X_hermitian|apply m_X_square|apply x_exponential|apply (cq_ints [0])|ex_side|].
  exists out. split; [exact E|]. rewrite A by (simpl; tauto). rewrite cos_PI2, sin_PI2. lazy -[Rplus Rmult Ropp Rminus IZR]. f_equal; ring.
Qed.

(** a Pauli matrix for the time t is the rotation by 2 t, anywhere in a circuit *)
Theorem C113_pauli_evolution_is_rotation : forall w n vals circuit circuit' gs1 gs2 U1 U2 rot G h t q c cs st, set_order (set_iter w) ->
    lookup vals "hamiltonian"%string = Ok (VMat h) -> lookup vals "time_evolution"%string = Ok (VNum t) ->
    In (rot, G) rotations -> is_matrix 1 h -> keq 1 (entry h) G -> exponential_of (expm w) 1 (minus_i h) ->
    control_qubits (parse_control c) cs -> valid_qubits n (cs ++ [q]) ->
    hybrid_circuit w n vals gs1 U1 -> hybrid_circuit w n vals gs2 U2 ->
    sequence_of circuit (gs1 ++ [HamiltonianEvolution (TTup [q]) c] ++ gs2) ->
    sequence_of circuit' (gs1 ++ [rot (PNum (2 * t)) (TInt q) c None false] ++ gs2) -> state_of n st ->
    exists out, run w circuit st vals = Ok (Some out) /\ run w circuit' st vals = Ok (Some out) /\ state_of n out.
Proof. exact c113_rotation. Qed.
Print Assumptions C113_pauli_evolution_is_rotation.
Definition ex_x_circuit (g : gate) : oper := OSeq [OGate (gH (TInt 0) no_control None false); OGate g].
Example C113_rotation_example : forall t, exists out,
    run x_world (ex_x_circuit (HamiltonianEvolution (TTup [1]) (IInt 0))) (SDense (basis [0; 1])) (evolution_values m_X t) = Ok (Some out) /\
    run x_world (ex_x_circuit (RX (PNum (2 * t)) (TInt 1) (IInt 0) None false)) (SDense (basis [0; 1])) (evolution_values m_X t) = Ok (Some out).
Proof.
  intro t.
  assert (Q : forall g, sequence_of (ex_x_circuit g) ([gH (TInt 0) no_control None false] ++ [g] ++ [])).
  { intro g. change ([gH (TInt 0) no_control None false] ++ [g] ++ []) with (List.concat [[gH (TInt 0) no_control None false]; [g]]). apply so_seq. repeat (apply Forall2_cons; [apply so_gate|]). apply Forall2_nil. }
  assert (HH : hybrid_gate x_world 2 (evolution_values m_X t) (gH (TInt 0) no_control None false) (gate_op H_matrix [] [0])).
  { apply hg_library; [|reflexivity|reflexivity]. split; [eapply gm_fixed; simpl; eauto 10|apply cq_default|reflexivity|ex_side]. }
  destruct (C113_pauli_evolution_is_rotation x_world 2 (evolution_values m_X t) (ex_x_circuit (HamiltonianEvolution (TTup [1]) (IInt 0)))
    (ex_x_circuit (RX (PNum (2 * t)) (TInt 1) (IInt 0) None false)) [gH (TInt 0) no_control None false] [] (kmul 2 kid (gate_op H_matrix [] [0])) kid RX X_matrix m_X t 1 (IInt 0) [0] (SDense (basis [0; 1])))
    as (out & E & E' & _); [apply ex_world_order|reflexivity|reflexivity|simpl; tauto|apply m_X_matrix|apply m_X_matrix|apply x_exponential|apply (cq_ints [0])|ex_side
    |apply hc_cons; [exact HH|apply hc_nil]|apply hc_nil|apply Q|apply Q|ex_side|].
  exists out. split; assumption.
Qed.

(** the sum of two Hamiltonians that commute: first one evolution, then the other *)
Theorem C113_commuting_hamiltonians : forall w n psi h1 h2 h ts c cs t, is_state n psi -> control_qubits (parse_control c) cs -> valid_qubits n (cs ++ ts) ->
    let k := List.length ts in
    is_matrix k h1 -> is_matrix k h2 -> is_matrix k h -> hermitian k (entry h1) -> hermitian k (entry h2) ->
    keq k (entry h) (kadd (entry h1) (entry h2)) -> keq k (kmul k (entry h1) (entry h2)) (kmul k (entry h2) (entry h1)) ->
    exponential_of (expm w) k (minus_i h1) -> exponential_of (expm w) k (minus_i h2) -> exponential_of (expm w) k (minus_i h) ->
    let evolution := OGate (HamiltonianEvolution (TTup ts) c) in
    exists mid out, run w evolution (SDense psi) (evolution_values h1 t) = Ok (Some (SDense mid)) /\
      run w evolution (SDense mid) (evolution_values h2 t) = Ok (Some (SDense out)) /\
      run w evolution (SDense psi) (evolution_values h t) = Ok (Some (SDense out)) /\ is_state n out.
Proof. exact c113_commuting. Qed.
Print Assumptions C113_commuting_hamiltonians.
Example C113_commuting_example : forall t, exists mid out,
    run evol_world (OGate (HamiltonianEvolution (TTup [2; 0]) (IInt 1))) (SDense (basis [0; 1; 1])) (evolution_values ham01 t) = Ok (Some (SDense mid)) /\
    run evol_world (OGate (HamiltonianEvolution (TTup [2; 0]) (IInt 1))) (SDense mid) (evolution_values ham_ZZ t) = Ok (Some (SDense out)) /\
    run evol_world (OGate (HamiltonianEvolution (TTup [2; 0]) (IInt 1))) (SDense (basis [0; 1; 1])) (evolution_values ham_sum t) = Ok (Some (SDense out)).
Proof.
  intro t. destruct (C113_commuting_hamiltonians evol_world 3 (basis [0; 1; 1]) ham01 ham_ZZ ham_sum [2; 0] (IInt 1) [1] t) as (mid & out & A & B & D & _);
    [ex_side|apply (cq_ints [1])|ex_side|apply ham01_matrix|apply ham_ZZ_matrix|apply ham_sum_matrix|apply ham01_hermitian|apply ham_ZZ_hermitian|apply ham_sum_matrix|apply ham_commute
    |apply ham01_exponential|apply ham_ZZ_exponential|apply ham_sum_exponential|].
  exists mid, out. auto.
Qed.

(** the Ising interaction Z (x) Z is a rotation between two CNOTs, anywhere in a circuit *)
Theorem C113_ising_interaction : forall w n vals circuit circuit' gs1 gs2 U1 U2 h t a b st, set_order (set_iter w) ->
    lookup vals "hamiltonian"%string = Ok (VMat h) -> lookup vals "time_evolution"%string = Ok (VNum t) ->
    is_matrix 2 h -> keq 2 (entry h) (kron2 Z_matrix Z_matrix) -> exponential_of (expm w) 2 (minus_i h) -> valid_qubits n [a; b] ->
    hybrid_circuit w n vals gs1 U1 -> hybrid_circuit w n vals gs2 U2 ->
    sequence_of circuit (gs1 ++ [HamiltonianEvolution (TTup [a; b]) no_control] ++ gs2) ->
    sequence_of circuit' (gs1 ++ [gX (TInt b) (IInt a) None false; RZ (PNum (2 * t)) (TInt b) no_control None false; gX (TInt b) (IInt a) None false] ++ gs2) ->
    state_of n st ->
    exists out, run w circuit st vals = Ok (Some out) /\ run w circuit' st vals = Ok (Some out) /\ state_of n out.
Proof. exact c113_ising. Qed.
Print Assumptions C113_ising_interaction.
Example C113_ising_example : forall t, exists out,
    run evol_world (OSeq [OGate (HamiltonianEvolution (TTup [2; 0]) no_control)]) (SDense (basis [0; 1; 1])) (evolution_values ham_ZZ t) = Ok (Some out) /\
    run evol_world (OSeq [OGate (gX (TInt 0) (IInt 2) None false); OGate (RZ (PNum (2 * t)) (TInt 0) no_control None false); OGate (gX (TInt 0) (IInt 2) None false)])
      (SDense (basis [0; 1; 1])) (evolution_values ham_ZZ t) = Ok (Some out).
Proof.
  intro t.
  destruct (C113_ising_interaction evol_world 3 (evolution_values ham_ZZ t) (OSeq [OGate (HamiltonianEvolution (TTup [2; 0]) no_control)])
    (OSeq [OGate (gX (TInt 0) (IInt 2) None false); OGate (RZ (PNum (2 * t)) (TInt 0) no_control None false); OGate (gX (TInt 0) (IInt 2) None false)])
    [] [] kid kid ham_ZZ t 2 0 (SDense (basis [0; 1; 1]))) as (out & E & E' & _);
    [apply ex_world_order|reflexivity|reflexivity|apply ham_ZZ_matrix|apply ham_ZZ_matrix|apply ham_ZZ_exponential|ex_side|apply hc_nil|apply hc_nil| | |ex_side|].
  - apply (so_seq [OGate _] [[_]]). repeat (apply Forall2_cons; [apply so_gate|]). apply Forall2_nil.
  - apply (so_seq [OGate _; OGate _; OGate _] [[_]; [_]; [_]]). repeat (apply Forall2_cons; [apply so_gate|]). apply Forall2_nil.
  - exists out. split; assumption.
Qed.
