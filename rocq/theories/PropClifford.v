(** * C132: Clifford circuits on basis states have Pauli expectations -1, 0 or 1, and their possible outcomes are equally likely.

    The vocabulary is in Spec.v, GateSpec.v, ExpectSpec.v, GpsrSpec.v, PauliSpec.v, HeisSpec.v and CliffordSpec.v.  Every theorem is followed by an example that
    meets its hypotheses. *)
From Coq Require Import String List Arith Bool ZArith Reals Lia Lra.
From Verif Require Import Cplx Py Ndarray OperatorUtils ApplyOperator Sparse Matrices Noise Gates Apply Composite Conversion Shots Gpsr Api
  Spec SpecFacts GateSpec PropSpec NoiseSpec SampleSpec ExpectSpec GpsrSpec StructSpec StructThm3 PhysSpec PhysThm CtorSpec PauliSpec HeisSpec CliffordSpec ExpectThm2 GpsrFacts PauliThm HeisThm CliffordThm CliffordThm2 Examples InverseThm CircuitLawThm.
Import ListNotations.
Local Open Scope nat_scope.

(** a Pauli Hamiltonian: the sum of its coefficients times -1, 0 or 1 *)
Theorem C132_pauli_expectations_of_clifford_circuits : forall w n vals c gs st b H mode key, set_order (set_iter w) -> flat_values vals -> runnable n vals c gs -> Forall clifford gs -> in_basis_state n st b ->
    hamiltonian_ok n H -> (mixes st gs -> increasing_support w (hamiltonian_operations H)) -> exact_mode mode ->
    exists es, length es = length H /\ Forall sign_or_zero es /\ expectation w st c [hamiltonian_operations H] vals mode 0 key = Ok [weighted H es].
Proof. exact c132_values. Qed.
Print Assumptions C132_pauli_expectations_of_clifford_circuits.
(** H(0), CNOT(0, 1), S(1), CNOT(1, 2), CZ(0, 2), SWAP(0, 2), NOT(1), on the state |101> *)
Definition cf_gates : list gate :=
  [plain gH 0; gX (TInt 1) (IInt 0) None false; plain gS 1; gX (TInt 2) (IInt 1) None false; gZ (TInt 2) (IInt 0) None false; SWAP (TTup [0; 2]) no_control None false; plain NOT 1].
Example cf_clifford : Forall clifford cf_gates.
Proof.
  unfold cf_gates. apply Forall_cons; [apply cl_one; simpl; tauto|]. apply Forall_cons; [apply cl_cnot|]. apply Forall_cons; [apply cl_one; simpl; tauto|]. apply Forall_cons; [apply cl_cnot|].
  apply Forall_cons; [apply cl_cz|]. apply Forall_cons; [apply cl_swap|]. apply Forall_cons; [apply cl_one; simpl; tauto|apply Forall_nil].
Qed.
Example cf_run : runnable 3 [] (OpSequence (map OGate cf_gates)) cf_gates.
Proof.
  assert (V1 : forall q, q < 3 -> valid_qubits 3 [q]) by (intros q Hq; apply valid_one; exact Hq).
  assert (V2 : forall p q, p < 3 -> q < 3 -> p <> q -> valid_qubits 3 [p; q]).
  { intros p q Hp Hq D. split; [constructor; [intros [E|[]]; congruence|constructor; [intros []|constructor]]|]. apply Forall_cons; [exact Hp|apply Forall_cons; [exact Hq|apply Forall_nil]]. }
  split; [apply sequence_gates|split; [discriminate|split; [|split; [repeat constructor|]]]].
  - unfold cf_gates.
    repeat (apply Forall_cons; [do 3 eexists; split; [first [eapply gm_fixed; [reflexivity|reflexivity|reflexivity|simpl; eauto 10]|apply gm_SWAP; reflexivity]|first [apply cq_default|apply (cq_ints [0])|apply (cq_ints [1])]|reflexivity|cbn; first [apply V1; lia|apply V2; lia]]|]). apply Forall_nil.
  - unfold cf_gates. repeat (apply Forall_cons; [exact Logic.I|]). apply Forall_nil.
Qed.
Example cf_start : in_basis_state 3 (SDense (product_state [1; 0; 1])) [1; 0; 1].
Proof.
  assert (I : In [1; 0; 1] (bitstrings 3)) by (simpl; tauto). destruct (product_amp 3 _ I) as [HS V]. split; [exact I|split; [exact HS|]]. intros x y Hx Hy.
  cbn [density_of]. unfold pure_density. rewrite (V x Hx), (V y Hy). unfold ket. destruct (list_eq_dec Nat.eq_dec x [1; 0; 1]), (list_eq_dec Nat.eq_dec y [1; 0; 1]); apply C_ext; simpl; ring.
Qed.
Definition cf_H : hamiltonian := [((1 / 2)%R, [(LX, 0); (LY, 1); (LX, 2)]); ((-3)%R, [(LZ, 0); (LZ, 1)]); (7%R, [(LX, 1)])].
Example C132_values_example : exists es, length es = 3 /\ Forall sign_or_zero es /\
    expectation inc_world (SDense (product_state [1; 0; 1])) (OpSequence (map OGate cf_gates)) [hamiltonian_operations cf_H] [] AD 0 0 = Ok [weighted cf_H es].
Proof.
  apply (C132_pauli_expectations_of_clifford_circuits inc_world 3 [] _ cf_gates _ [1; 0; 1] cf_H AD 0);
    [exact inc_world_order|left; reflexivity|exact cf_run|exact cf_clifford|exact cf_start| | |constructor].
  - split; [discriminate|]. repeat (apply Forall_cons; [split; [discriminate|split; [cbn [map snd]; repeat constructor; simpl; lia|cbn [map snd]; repeat (apply Forall_cons; [lia|]); apply Forall_nil]]|]). apply Forall_nil.
  - intros [(a & E)|(g & I & N)]; [discriminate|]. elim N. simpl in I. repeat (destruct I as [<-|I]; [reflexivity|]). destruct I.
Qed.

(** every outcome has a probability k / 2^n, for a natural number k *)
Theorem C132_outcome_probabilities_of_clifford_circuits : forall w n vals c gs st b, set_order (set_iter w) -> runnable n vals c gs -> Forall clifford gs -> in_basis_state n st b ->
    exists out, run w c st vals = Ok (Some out) /\ forall x, In x (bitstrings n) -> exists k : nat, outcome_probability out x = (INR k / 2 ^ n)%R.
Proof. exact c132_outcomes. Qed.
Print Assumptions C132_outcome_probabilities_of_clifford_circuits.
Example C132_outcomes_example : exists out, run inc_world (OpSequence (map OGate cf_gates)) (SDense (product_state [1; 0; 1])) [] = Ok (Some out) /\
    forall x, In x (bitstrings 3) -> exists k : nat, outcome_probability out x = (INR k / 2 ^ 3)%R.
Proof. apply (C132_outcome_probabilities_of_clifford_circuits inc_world 3 [] _ cf_gates _ [1; 0; 1]); [exact inc_world_order|exact cf_run|exact cf_clifford|exact cf_start]. Qed.

(** the outcomes that occur all have the same probability 1 / 2^j *)
Theorem C132_outcomes_of_clifford_circuits_are_equally_likely : forall w n vals c gs st b, set_order (set_iter w) -> runnable n vals c gs -> Forall clifford gs -> in_basis_state n st b ->
    exists out j, run w c st vals = Ok (Some out) /\ j <= n /\ forall x, In x (bitstrings n) -> outcome_probability out x = 0%R \/ outcome_probability out x = (/ 2 ^ j)%R.
Proof. exact c132_uniform. Qed.
Print Assumptions C132_outcomes_of_clifford_circuits_are_equally_likely.
Example C132_uniform_example : exists out j, run inc_world (OpSequence (map OGate cf_gates)) (SDense (product_state [1; 0; 1])) [] = Ok (Some out) /\ j <= 3 /\
    forall x, In x (bitstrings 3) -> outcome_probability out x = 0%R \/ outcome_probability out x = (/ 2 ^ j)%R.
Proof. apply (C132_outcomes_of_clifford_circuits_are_equally_likely inc_world 3 [] _ cf_gates _ [1; 0; 1]); [exact inc_world_order|exact cf_run|exact cf_clifford|exact cf_start]. Qed.

(** if three outcomes can occur, so can their bitwise sum modulo 2: the possible outcomes form an affine subspace *)
Theorem C132_outcomes_of_clifford_circuits_are_closed_under_sums : forall w n vals c gs st b, set_order (set_iter w) -> runnable n vals c gs -> Forall clifford gs -> in_basis_state n st b ->
    exists out, run w c st vals = Ok (Some out) /\ forall x y z, In x (bitstrings n) -> In y (bitstrings n) -> In z (bitstrings n) ->
      outcome_probability out x <> 0%R -> outcome_probability out y <> 0%R -> outcome_probability out z <> 0%R -> outcome_probability out (xor3 x y z) <> 0%R.
Proof. exact c132_affine. Qed.
Print Assumptions C132_outcomes_of_clifford_circuits_are_closed_under_sums.
Example C132_affine_example : exists out, run inc_world (OpSequence (map OGate cf_gates)) (SDense (product_state [1; 0; 1])) [] = Ok (Some out) /\
    forall x y z, In x (bitstrings 3) -> In y (bitstrings 3) -> In z (bitstrings 3) ->
      outcome_probability out x <> 0%R -> outcome_probability out y <> 0%R -> outcome_probability out z <> 0%R -> outcome_probability out (xor3 x y z) <> 0%R.
Proof. apply (C132_outcomes_of_clifford_circuits_are_closed_under_sums inc_world 3 [] _ cf_gates _ [1; 0; 1]); [exact inc_world_order|exact cf_run|exact cf_clifford|exact cf_start]. Qed.
Example xor3_example : xor3 [0; 1; 1] [1; 1; 0] [1; 0; 1] = [0; 0; 0].
Proof. reflexivity. Qed.

(** one qubit alone reads 1 with probability 0, 1/2 or 1 *)
Theorem C132_one_qubit_of_a_clifford_circuit : forall w n vals c gs st b q, set_order (set_iter w) -> runnable n vals c gs -> Forall clifford gs -> in_basis_state n st b -> q < n ->
    exists out p, run w c st vals = Ok (Some out) /\ rsum (filter (fun x => Nat.eqb (nth q x 0%nat) 1%nat) (bitstrings n)) (outcome_probability out) = p /\ (p = 0 \/ p = 1 / 2 \/ p = 1)%R.
Proof. exact c132_qubit. Qed.
Print Assumptions C132_one_qubit_of_a_clifford_circuit.
Example C132_qubit_example : exists out p, run inc_world (OpSequence (map OGate cf_gates)) (SDense (product_state [1; 0; 1])) [] = Ok (Some out) /\
    rsum (filter (fun x => Nat.eqb (nth 2 x 0) 1) (bitstrings 3)) (outcome_probability out) = p /\ (p = 0 \/ p = 1 / 2 \/ p = 1)%R.
Proof. apply (C132_one_qubit_of_a_clifford_circuit inc_world 3 [] _ cf_gates _ [1; 0; 1]); [exact inc_world_order|exact cf_run|exact cf_clifford|exact cf_start|lia]. Qed.

(** without the restriction to Clifford gates both fail: RY(1) takes |0> to a state with <Z> = cos 1 *)
Example C132_rotation : exists v, expectation inc_world (SDense (product_state [0])) (OpSequence [OGate (plain (RY (PNum 1)) 0)]) [hamiltonian_operations [(1%R, [(LZ, 0)])]] [] AD 0 0 = Ok [v] /\ ~ sign_or_zero v.
Proof.
  assert (RN : runnable 1 [] (OpSequence [OGate (plain (RY (PNum 1)) 0)]) [plain (RY (PNum 1)) 0]).
  { split; [apply (sequence_gates [plain (RY (PNum 1)) 0])|split; [discriminate|split; [|split; [repeat constructor|apply Forall_cons; [exact Logic.I|apply Forall_nil]]]]].
    apply Forall_cons; [|apply Forall_nil]. do 3 eexists. split; [eapply gm_rotation; [reflexivity|reflexivity|reflexivity|eexists; split; reflexivity|simpl; tauto]|apply cq_default|reflexivity|apply valid_one; lia]. }
  assert (HO : hamiltonian_ok 1 [(1%R, [(LZ, 0)])]).
  { split; [discriminate|]. apply Forall_cons; [|apply Forall_nil]. split; [discriminate|split; [repeat constructor; simpl; tauto|apply Forall_cons; [cbn; lia|apply Forall_nil]]]. }
  assert (I : In [0] (bitstrings 1)) by (simpl; tauto). destruct (product_amp 1 _ I) as [HS V].
  set (g := plain (RY (PNum 1)) 0) in *. set (r := density_of (SDense (product_state [0]))).
  assert (ER : keq 1 r (bproj [0])).
  { intros x y Hx Hy. unfold r. cbn [density_of]. unfold pure_density. rewrite (V x Hx), (V y Hy). unfold ket, bproj. destruct (list_eq_dec Nat.eq_dec x [0]), (list_eq_dec Nat.eq_dec y [0]); apply C_ext; simpl; ring. }
  assert (FR : Forall2 (readable inc_world 1 [] (SDense (product_state [0])) [g]) [hamiltonian_operations [(1%R, [(LZ, 0)])]] [hop 1 [(1%R, [(LZ, 0)])]]).
  { constructor; [|constructor]. split; [exists false; apply hamiltonian_on; exact HO|]. intros [(a & Q)|(h & Ig & N)]; [discriminate|]. elim N. destruct Ig as [<-|[]]. reflexivity. }
  assert (NE : [hamiltonian_operations [(1%R, [(LZ, 0)])]] <> []) by discriminate.
  assert (MV : mean_density 1 (hop 1 [(1%R, [(LZ, 0)])]) (evolve 1 [] [g] r) = cos 1).
  { assert (N1 : Forall noiseless [g]) by (repeat constructor).
    rewrite (ExpectThm.mean_density_ext 1 _ _ _ _ (keq_refl 1 _) (CircuitLawThm.evolve_plain 1 [] [g] r N1)).
    rewrite (pulled_mean 1 _ _ _ r (keq_refl 1 _)), (ExpectThm.mean_density_ext 1 _ _ _ _ (keq_refl 1 _) ER), (mean_bproj 1 _ [0] I).
    assert (KE : kop [] g = gate_op (RY_matrix 1) [] [0]) by (unfold kop; rewrite (mat_of_spec [] g (RY_matrix 1)); [reflexivity|apply (built_matrix [] (TInt 0) no_control None 1); [apply b_RY, an_number|reflexivity]]).
    cbn [CircuitLawThm.uop]. rewrite KE. destruct (half_angle 1) as (E1 & _ & _). rewrite E1. lazy -[Rplus Rmult Ropp Rminus IZR cos sin Rdiv Rinv]. ring. }
  exists (cos 1). split; [rewrite (exact_spec inc_world 1 [] _ [g] (SDense (product_state [0])) _ _ AD 0 inc_world_order (or_introl eq_refl) RN HS NE FR ltac:(constructor)); cbn [map]; fold r; rewrite MV; reflexivity|].
  pose proof Ratan.PI2_1 as P1. assert (C0' : (0 < cos 1)%R) by (apply cos_gt_0; lra). assert (S0 : (0 < sin 1)%R) by (apply sin_gt_0; lra). pose proof (full_angle 1) as Q. intros [E|[E|E]]; rewrite E in *; nra.
Qed.
