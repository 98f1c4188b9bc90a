(** * C111: Hamiltonians made of Pauli strings, as in docs/vqe.md.

    The vocabulary is in Spec.v, GateSpec.v, PropSpec.v, NoiseSpec.v, SampleSpec.v, ExpectSpec.v, ShotsSpec.v, GpsrSpec.v, PhysSpec.v and PauliSpec.v.
    Every theorem is followed by an example that meets its hypotheses. *)
From Coq Require Import String List Arith Bool Reals Lia Lra ZArith Permutation.
From Verif Require Import Cplx Py Ndarray OperatorUtils ApplyOperator Sparse Matrices Noise Gates Apply Composite Shots Gpsr Api
  Spec GateSpec PropSpec NoiseSpec SampleSpec ExpectSpec ShotsSpec GpsrSpec PhysSpec PauliSpec AlgebraFacts TensorThm NoiseThm NoiseThm2 SeqThm ExpectThm ExpectThm2 ShotsThm ShotsThm2
  PauliThm Examples.
Import ListNotations.
Local Open Scope nat_scope.

(** C111: the expectation of the Hamiltonian is sum_k c_k <P_k> in the output of the circuit, for state vectors and density
    matrices, in both modes *)
Theorem C111_pauli_hamiltonian : forall w n vals c gs st H mode key, set_order (set_iter w) -> flat_values vals -> runnable n vals c gs -> state_of n st ->
    hamiltonian_ok n H -> (mixes st gs -> increasing_support w (hamiltonian_operations H)) -> exact_mode mode ->
    exists out, run w c st vals = Ok (Some out) /\ expectation w st c [hamiltonian_operations H] vals mode 0 key = Ok [energy n H out].
Proof. exact c111_value. Qed.
Print Assumptions C111_pauli_hamiltonian.
(** the Hamiltonian of H2 in docs/vqe.md (coefficients in units of 10^-4), on four qubits *)
Definition H2 : hamiltonian :=
  [((-996)%R, [(LI, 0)]); (1711%R, [(LZ, 0)]); (1711%R, [(LZ, 1)]); (1686%R, [(LZ, 0); (LZ, 1)]);
   (453%R, [(LY, 0); (LX, 1); (LX, 2); (LY, 3)]); ((-453)%R, [(LY, 0); (LY, 1); (LX, 2); (LX, 3)]);
   ((-453)%R, [(LX, 0); (LX, 1); (LY, 2); (LY, 3)]); (453%R, [(LX, 0); (LY, 1); (LY, 2); (LX, 3)]);
   ((-2225)%R, [(LZ, 2)]); (1205%R, [(LZ, 0); (LZ, 2)]); ((-2225)%R, [(LZ, 3)]); (1658%R, [(LZ, 0); (LZ, 3)]);
   (1658%R, [(LZ, 1); (LZ, 2)]); (1205%R, [(LZ, 1); (LZ, 3)]); (1743%R, [(LZ, 2); (LZ, 3)])].
Example H2_ok : hamiltonian_ok 4 H2.
Proof.
  split; [discriminate|]. unfold H2. repeat (apply Forall_cons; [split; [discriminate|split; [cbn [map snd]; repeat constructor; simpl; lia|cbn [map snd]; repeat (apply Forall_cons; [lia|]); apply Forall_nil]]|]). apply Forall_nil.
Qed.
(** a noisy gate on the density matrix path, the H2 Hamiltonian being read there *)
Definition pauli_noisy : list gate := [gX (TInt 0) no_control (Some [mkNoise BITFLIP (PFloat (1 / 4))]) false; gH (TInt 2) (IInt 0) None false].
Example pauli_noisy_runnable : runnable 4 [] (OpSequence (map OGate pauli_noisy)) pauli_noisy.
Proof.
  split; [apply (so_seq _ [[_]; [_]]); repeat constructor|split; [discriminate|split; [|split]]].
  - apply Forall_cons; [|apply Forall_cons; [|apply Forall_nil]].
    + do 3 eexists; split; [eapply gm_fixed; simpl; eauto 10|apply cq_default|reflexivity|ex_side].
    + do 3 eexists; split; [eapply gm_fixed; simpl; eauto 10|apply (cq_ints [0])|reflexivity|ex_side].
  - repeat constructor.
  - apply Forall_cons; [|apply Forall_cons; [exact Logic.I|apply Forall_nil]]. split; [reflexivity|]. apply Forall_cons; [|apply Forall_nil].
    split; [exact Logic.I|]. unfold valid_parameter, is_prob; simpl; lra.
Qed.
Example H2_increasing : increasing_support inc_world (hamiltonian_operations H2).
Proof.
  intros s E. assert (E' : s = [0; 1; 2; 3]) by (cbv in E; congruence). subst s. repeat (constructor; [|repeat constructor; lia]). constructor.
Qed.
Example C111_example : exists out, run inc_world (OpSequence (map OGate pauli_noisy)) (SDense (zero_state 4)) [] = Ok (Some out) /\
    expectation inc_world (SDense (zero_state 4)) (OpSequence (map OGate pauli_noisy)) [hamiltonian_operations H2] [] GPSR 0 0 = Ok [energy 4 H2 out].
Proof.
  apply (C111_pauli_hamiltonian inc_world 4 [] _ pauli_noisy (SDense (zero_state 4)) H2 GPSR 0);
    [exact inc_world_order|left; reflexivity|exact pauli_noisy_runnable|split; reflexivity|exact H2_ok|intros _; exact H2_increasing|constructor].
Qed.

(** C111: the matrix of the Hamiltonian that every other theorem on expectation values, gradients and shots speaks about is
    sum_k c_k P_k, entry by entry *)
Theorem C111_pauli_hamiltonian_is_readable : forall w n vals st gs H, hamiltonian_ok n H -> (mixes st gs -> increasing_support w (hamiltonian_operations H)) ->
    exists K, readable w n vals st gs (hamiltonian_operations H) K /\ keq n K (hamiltonian_matrix n H).
Proof. exact c111_readable. Qed.
Print Assumptions C111_pauli_hamiltonian_is_readable.
Example C111_readable_example : exists K, readable inc_world 4 [] (SDense (zero_state 4)) pauli_noisy (hamiltonian_operations H2) K /\ keq 4 K (hamiltonian_matrix 4 H2).
Proof. apply C111_pauli_hamiltonian_is_readable; [exact H2_ok|intros _; exact H2_increasing]. Qed.

(** C111: it is Hermitian *)
Theorem C111_pauli_hamiltonian_is_hermitian : forall n H, keq n (kadj (hamiltonian_matrix n H)) (hamiltonian_matrix n H).
Proof. exact c111_hermitian. Qed.
Print Assumptions C111_pauli_hamiltonian_is_hermitian.

(** C111: the energy lies between plus and minus the sum of the absolute values of the coefficients *)
Theorem C111_pauli_energy_bound : forall w n vals c gs st H mode key, set_order (set_iter w) -> flat_values vals -> runnable n vals c gs -> state_of n st -> physical n st ->
    hamiltonian_ok n H -> (mixes st gs -> increasing_support w (hamiltonian_operations H)) -> exact_mode mode ->
    exists e, expectation w st c [hamiltonian_operations H] vals mode 0 key = Ok [e] /\ (- one_norm H <= e <= one_norm H)%R.
Proof. exact c111_bound. Qed.
Print Assumptions C111_pauli_energy_bound.
Example C111_bound_example : exists e, expectation inc_world (SDense (zero_state 4)) (OpSequence (map OGate pauli_noisy)) [hamiltonian_operations H2] [] AD 0 0 = Ok [e] /\
    (- one_norm H2 <= e <= one_norm H2)%R.
Proof.
  apply (C111_pauli_energy_bound inc_world 4 [] _ pauli_noisy (SDense (zero_state 4)) H2 AD 0);
    [exact inc_world_order|left; reflexivity|exact pauli_noisy_runnable|split; reflexivity| |exact H2_ok|intros _; exact H2_increasing|constructor].
  unfold physical, norm2; lazy -[Rplus Rmult Ropp Rminus IZR]; ring.
Qed.

(** C111: with shots, the mean of the estimate over fair draws is sum_k c_k <P_k> *)
Theorem C111_pauli_hamiltonian_with_shots : forall w n vals c gs st H ev V mode k key, set_order (set_iter w) -> runnable n vals c gs -> state_of n st ->
    hamiltonian_ok n H -> diagonalised w n (hamiltonian_matrix n H) ev V -> mode = AD \/ mode = GPSR -> (0 < k)%Z ->
    exists out estimate, run w c st vals = Ok (Some out) /\
      (forall ch, expectation (with_choice w ch) st c [hamiltonian_operations H] vals mode k key = Ok [estimate ch]) /\
      forall Om, fair_sampling Om key (outcome_distribution n (entry V) out) (Z.to_nat k) -> expected Om estimate = energy n H out.
Proof. exact c111_shots. Qed.
Print Assumptions C111_pauli_hamiltonian_with_shots.
Example single_Z : keq 1 oZ (hamiltonian_matrix 1 [(1%R, [(LZ, 0)])]).
Proof. intros x y Hx Hy. simpl in Hx, Hy. destruct Hx as [<-|[<-|[]]], Hy as [<-|[<-|[]]]; unfold oZ; ex_calc. Qed.
Example C111_shots_example : exists out estimate, run pauli_world (OpSequence [x0_gate]) (SDense (zero_state 1)) [] = Ok (Some out) /\
    (forall ch, expectation (with_choice pauli_world ch) (SDense (zero_state 1)) (OpSequence [x0_gate]) [hamiltonian_operations [(1%R, [(LZ, 0)])]] [] AD 5 0 = Ok [estimate ch]) /\
    forall Om, fair_sampling Om 0 (outcome_distribution 1 (entry VZ) out) (Z.to_nat 5) -> expected Om estimate = energy 1 [(1%R, [(LZ, 0)])] out.
Proof.
  apply (C111_pauli_hamiltonian_with_shots pauli_world 1 [] (OpSequence [x0_gate]) [gX q0 no_control None false] (SDense (zero_state 1)) _ pm1 VZ AD 5 0);
    [exact pauli_world_order| |split; reflexivity| |apply (diagonalised_ext _ _ oZ); [exact single_Z|exact pauli_world_Z]|left; reflexivity|lia].
  - split; [exact x0_sequence|split; [discriminate|split; [apply Forall_cons; [exact x0_usable|apply Forall_nil]|split; [apply Forall_cons; [reflexivity|apply Forall_nil]|apply Forall_cons; [exact Logic.I|apply Forall_nil]]]]].
  - split; [discriminate|]. apply Forall_cons; [|apply Forall_nil]. split; [discriminate|split; cbn [map snd]; repeat constructor; simpl; tauto].
Qed.
