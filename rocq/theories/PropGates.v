(** * C20-C24, C76: gate matrices, rotations, jacobians and Hamiltonian evolution.

    The vocabulary is in Spec.v, GateSpec.v and PropSpec.v.  Every theorem is followed by an example that meets
    its hypotheses. *)
From Coq Require Import List String Arith Bool Reals Lia Lra Permutation Sorted.
From Verif Require Import Cplx Py Ndarray OperatorUtils ApplyOperator Sparse Matrices Noise Gates Apply Composite Api
  Spec GateSpec PropSpec ApplyThm GateThm EvolThm GenThm Examples EvolExamples.
Import ListNotations.
Local Open Scope nat_scope.

(** C20 *)
Theorem C20_library_gates_are_unitary : forall w vals g M, gate_matrix vals g M -> dense_gate g ->
    exists u, unitary_of w g vals = Ok (MD u) /\ is_matrix (List.length (target g)) u /\
              keq (List.length (target g)) (entry u) M /\ unitary (List.length (target g)) (entry u).
Proof. exact c20_unitary. Qed.
Print Assumptions C20_library_gates_are_unitary.
Theorem C20_pauli_gates_are_hermitian_involutions : forall w vals g M, gate_matrix vals g M -> dense_gate g -> gclass g = KPrim ->
    In (generator_name g) ["I"; "X"; "Y"; "Z"; "H"; "SWAP"]%string ->
    exists u, unitary_of w g vals = Ok (MD u) /\ hermitian (List.length (target g)) (entry u) /\
              keq (List.length (target g)) (kmul (List.length (target g)) (entry u) (entry u)) kid.
Proof. exact c20_hermitian. Qed.
Print Assumptions C20_pauli_gates_are_hermitian_involutions.
Example C20_example : exists u, unitary_of ex_world (gH (TInt 4) (IInt 1) None false) [] = Ok (MD u) /\
    hermitian 1 (entry u) /\ keq 1 (kmul 1 (entry u) (entry u)) kid.
Proof.
  eapply (C20_pauli_gates_are_hermitian_involutions ex_world [] (gH (TInt 4) (IInt 1) None false));
    [eapply gm_fixed; simpl; eauto 10|reflexivity|reflexivity|simpl; tauto].
Qed.
Example C20_rotation_example : exists u, unitary_of ex_world (RZ (PName "a") (TInt 4) (IInt 1) None false) ex_values = Ok (MD u) /\
    unitary 1 (entry u).
Proof.
  edestruct (C20_library_gates_are_unitary ex_world ex_values (RZ (PName "a") (TInt 4) (IInt 1) None false)) as (u & E & _ & _ & U);
    [eapply gm_rotation with (R_ := RZ_matrix); simpl; eauto 10; eexists; split; reflexivity|reflexivity|exists u; auto].
Qed.

(** C21: [rotations] lists RX, RY, RZ with the Pauli matrices *)
Theorem C21_rotations_one_parameter_group : forall w vals rot G tgt c ns, In (rot, G) rotations ->
    exists U : R -> arr,
      (forall a, unitary_of w (rot (PNum a) tgt c ns false) vals = Ok (MD (U a)) /\ is_matrix 1 (U a)) /\
      (forall a b, keq 1 (kmul 1 (entry (U a)) (entry (U b))) (entry (U (a + b)%R))) /\
      keq 1 (entry (U 0%R)) kid /\
      (forall a, keq 1 (kadj (entry (U a))) (entry (U (- a)%R))) /\
      keq 1 (entry (U (2 * PI)%R)) (kscale (RtoC (-1)) kid) /\
      (forall a, kderiv 1 (fun s => entry (U s)) a (kmul 1 (kscale (Cmul (RtoC (1 / 2)) (Copp Ci)) G) (entry (U a)))).
Proof. exact c21_rotations. Qed.
Print Assumptions C21_rotations_one_parameter_group.
Example C21_example : rotations = [(RX, X_matrix); (RY, Y_matrix); (RZ, Z_matrix)].
Proof. reflexivity. Qed.

(** C22: the constructors that work, and those that do not *)
Theorem C22_constructors_applicable_partial : forall w n vals psi c cs, is_state n psi -> control_qubits (parse_control c) cs ->
    (forall ctor q, In ctor [gI; gX; NOT; gY; gZ; gH; gS; gT] -> valid_qubits n (cs ++ [q]) ->
       exists out, apply_gates w (SDense psi) (GOne (ctor (TInt q) c None false)) vals UNITARY false true = Ok (SDense out) /\
                   is_state n out) /\
    (forall a b, valid_qubits n (cs ++ [a; b]) ->
       exists out, apply_gates w (SDense psi) (GOne (SWAP (TTup [a; b]) c None false)) vals UNITARY false true = Ok (SDense out) /\
                   is_state n out) /\
    (forall ctor p q, In ctor [RX; RY; RZ; PHASE] ->
       match p with PNum _ => True | PName s => exists x, lookup vals s = Ok (VNum x) end ->
       valid_qubits n (cs ++ [q]) ->
       exists out, apply_gates w (SDense psi) (GOne (ctor p (TInt q) c None false)) vals UNITARY false true = Ok (SDense out) /\
                   is_state n out).
Proof. exact c22_applicable. Qed.
Print Assumptions C22_constructors_applicable_partial.
Theorem C22_constructors_applicable_refuted : forall w s vals t c ns sp ctor gr mg, In ctor [SQRTSWAP; ISWAP; ISQRTSWAP] ->
    apply_gates w s (GOne (ctor t c ns sp)) vals UNITARY gr mg = Err KeyError.
Proof. exact c22_refuted. Qed.
Print Assumptions C22_constructors_applicable_refuted.
Example C22_example : exists out,
    apply_gates ex_world (SDense (basis [0; 1; 1])) (GOne (SWAP (TTup [2; 0]) (ITup [QInt 1]) None false)) [] UNITARY false true
      = Ok (SDense out) /\ is_state 3 out.
Proof.
  destruct (C22_constructors_applicable_partial ex_world 3 [] (basis [0; 1; 1]) (ITup [QInt 1]) [1]) as (_ & H & _);
    [ex_side|apply (cq_ints [1])|apply H; ex_side].
Qed.

(** C23: right for PHASE, wrong for the rotations *)
Theorem C23_jacobian_is_derivative_partial : forall w g (V : R -> values) b t, gclass g = KPhase -> dense_gate g ->
    (forall s, angle (V s) g (s + b)%R) ->
    exists U J, (forall s, unitary_of w g (V s) = Ok (MD (U s))) /\ jacobian_of w g (V t) = Ok (MD J) /\
      is_matrix 1 J /\ kderiv 1 (fun s => entry (U s)) t (entry J).
Proof. exact c23_phase. Qed.
Print Assumptions C23_jacobian_is_derivative_partial.
Theorem C23_jacobian_is_derivative_refuted : forall w vals tgt c ns rot G, In (rot, G) [(RX, X_matrix); (RY, Y_matrix); (RZ, Z_matrix)] ->
    exists U J, (forall s, unitary_of w (rot (PNum s) tgt c ns false) vals = Ok (MD (U s))) /\
      jacobian_of w (rot (PNum PI) tgt c ns false) vals = Ok (MD J) /\
      ~ kderiv 1 (fun s => entry (U s)) PI (entry J).
Proof. exact c23_refuted. Qed.
Print Assumptions C23_jacobian_is_derivative_refuted.
(** for the rotations it is the derivative only at the angles with sin(t/2) = 0 *)
Theorem C23_rotation_jacobian_partial : forall w vals tgt c ns rot G t, In (rot, G) [(RX, X_matrix); (RY, Y_matrix); (RZ, Z_matrix)] ->
    exists U J, (forall s, unitary_of w (rot (PNum s) tgt c ns false) vals = Ok (MD (U s))) /\
      jacobian_of w (rot (PNum t) tgt c ns false) vals = Ok (MD J) /\
      (kderiv 1 (fun s => entry (U s)) t (entry J) <-> sin (t / 2) = 0%R).
Proof. exact c23_rotations. Qed.
Print Assumptions C23_rotation_jacobian_partial.
Example C23_example : exists U J,
    (forall s, unitary_of ex_world (PHASE (PName "a") (TInt 0) no_control None false) [("a"%string, VNum s)] = Ok (MD (U s))) /\
    jacobian_of ex_world (PHASE (PName "a") (TInt 0) no_control None false) [("a"%string, VNum 2%R)] = Ok (MD J) /\
    is_matrix 1 J /\ kderiv 1 (fun s => entry (U s)) 2 (entry J).
Proof.
  apply (C23_jacobian_is_derivative_partial ex_world (PHASE (PName "a") (TInt 0) no_control None false)
           (fun s => [("a"%string, VNum s)]) 0); [reflexivity|reflexivity|].
  intro s; eexists; split; reflexivity.
Qed.

(** C24: right for uncontrolled PHASE gates, wrong for controlled ones *)
Theorem C24_jacobian_application_partial : forall w n psi g (V : R -> values) b t cs,
    is_state n psi -> gclass g = KPhase -> dense_gate g -> noiseless g -> List.length (target g) = 1 ->
    control_qubits (control g) cs -> cs = [] -> valid_qubits n (target g) ->
    (forall s, angle (V s) g (s + b)%R) ->
    exists out dout,
      (forall s, apply_gates w (SDense psi) (GOne g) (V s) UNITARY false true = Ok (SDense (out s))) /\
      apply_gates w (SDense psi) (GOne g) (V t) JACOBIAN false true = Ok (SDense dout) /\ is_state n dout /\
      forall x, In x (bitstrings n) -> Cderiv (fun s => amp (out s) x) t (amp dout x).
Proof. exact c24_phase. Qed.
Print Assumptions C24_jacobian_application_partial.
Theorem C24_jacobian_application_refuted : forall w t, exists out dout,
    is_state 2 ket00 /\
    (forall s, usable 2 [] (PHASE (PNum s) (TInt 1) (IInt 0) None false)) /\
    (forall s, apply_gates w (SDense ket00) (GOne (PHASE (PNum s) (TInt 1) (IInt 0) None false)) [] UNITARY false true
               = Ok (SDense (out s))) /\
    apply_gates w (SDense ket00) (GOne (PHASE (PNum t) (TInt 1) (IInt 0) None false)) [] JACOBIAN false true = Ok (SDense dout) /\
    Cderiv (fun s => amp (out s) [0; 0]) t C0 /\ amp dout [0; 0] = C1.
Proof. exact c24_refuted. Qed.
Print Assumptions C24_jacobian_application_refuted.
Example C24_example : exists out dout,
    (forall s, apply_gates ex_world (SDense (basis [0; 1])) (GOne (PHASE (PName "a") (TInt 1) no_control None false))
                 [("a"%string, VNum s)] UNITARY false true = Ok (SDense (out s))) /\
    apply_gates ex_world (SDense (basis [0; 1])) (GOne (PHASE (PName "a") (TInt 1) no_control None false))
      [("a"%string, VNum 2%R)] JACOBIAN false true = Ok (SDense dout) /\ is_state 2 dout /\
    forall x, In x (bitstrings 2) -> Cderiv (fun s => amp (out s) x) 2 (amp dout x).
Proof.
  apply (C24_jacobian_application_partial ex_world 2 (basis [0; 1]) (PHASE (PName "a") (TInt 1) no_control None false)
           (fun s => [("a"%string, VNum s)]) 0 2 []); try reflexivity; try ex_side.
  intro s; eexists; split; reflexivity.
Qed.

(** C76: the contract of the matrix exponential is the hypothesis [exponential_of] (PropSpec.v) *)
Theorem C76_hamiltonian_evolution : forall w n psi h ts c cs,
    is_state n psi -> is_matrix (List.length ts) h -> hermitian (List.length ts) (entry h) ->
    exponential_of (expm w) (List.length ts) (minus_i h) ->
    control_qubits (parse_control c) cs -> valid_qubits n (cs ++ ts) ->
    let g := HamiltonianEvolution (TTup ts) c in
    exists out : R -> arr -> arr,
      (forall t phi, is_state n phi ->
         apply_gates w (SDense phi) (GOne g) (evolution_values h t) UNITARY false true = Ok (SDense (out t phi)) /\
         is_state n (out t phi) /\ norm2 n (amp (out t phi)) = norm2 n (amp phi)) /\
      veq n (amp (out 0%R psi)) (amp psi) /\
      (forall s t, veq n (amp (out t (out s psi))) (amp (out (s + t)%R psi))).
Proof. exact c76_evolution. Qed.
Print Assumptions C76_hamiltonian_evolution.
Example C76_example : exists out : R -> arr -> arr,
    (forall t phi, is_state 3 phi ->
       apply_gates evol_world (SDense phi) (GOne (HamiltonianEvolution (TTup [2; 0]) (IInt 1))) (evolution_values ham01 t)
         UNITARY false true = Ok (SDense (out t phi)) /\
       is_state 3 (out t phi) /\ norm2 3 (amp (out t phi)) = norm2 3 (amp phi)) /\
    veq 3 (amp (out 0%R (basis [0; 1; 1]))) (amp (basis [0; 1; 1])) /\
    (forall s t, veq 3 (amp (out t (out s (basis [0; 1; 1])))) (amp (out (s + t)%R (basis [0; 1; 1])))).
Proof.
  apply (C76_hamiltonian_evolution evol_world 3 (basis [0; 1; 1]) ham01 [2; 0] (IInt 1) [1]);
    [ex_side|apply ham01_matrix|apply ham01_hermitian|apply ham01_exponential|apply (cq_ints [1])|ex_side].
Qed.
