(** * C98, C99: Hamiltonian evolution as quantum dynamics and inside circuits.

    The vocabulary is in Spec.v, GateSpec.v, PropSpec.v, ExpectSpec.v and EvolSpec.v.  Every theorem is followed by an
    example that meets its hypotheses. *)
From Coq Require Import String List Arith Bool ZArith Reals Lia Lra Permutation Sorted.
From Verif Require Import Cplx Py Ndarray OperatorUtils ApplyOperator Sparse Matrices Noise Gates Apply Composite Api
  Spec GateSpec PropSpec NoiseSpec ExpectSpec SampleSpec EvolSpec ApplyThm GateThm EvolThm EvolThm2 ExpectThm2 GpsrThm3 Examples EvolExamples.
Import ListNotations.
Local Open Scope nat_scope.

(** C98.  The contract of the matrix exponential is the hypothesis [exponential_of] (PropSpec.v). *)
Theorem C98_schroedinger_equation : forall w n psi h ts c cs,
    is_state n psi -> is_matrix (List.length ts) h -> hermitian (List.length ts) (entry h) ->
    exponential_of (expm w) (List.length ts) (minus_i h) ->
    control_qubits (parse_control c) cs -> valid_qubits n (cs ++ ts) ->
    let g := HamiltonianEvolution (TTup ts) c in
    let H := controlled_hamiltonian (entry h) cs ts in
    exists out : R -> arr,
      (forall t, run w (OGate g) (SDense psi) (evolution_values h t) = Ok (Some (SDense (out t))) /\ is_state n (out t)) /\
      veq n (amp (out 0%R)) (amp psi) /\
      (forall t x, In x (bitstrings n) ->
         Cderiv (fun s => amp (out s) x) t (Cmul (Copp Ci) (apply_kernel n H (amp (out t)) x))) /\
      (forall t, mean_pure n H (amp (out t)) = mean_pure n H (amp psi)) /\
      (forall K t, keq n (kmul n K H) (kmul n H K) -> mean_pure n K (amp (out t)) = mean_pure n K (amp psi)).
Proof. exact c98_schroedinger. Qed.
Print Assumptions C98_schroedinger_equation.
Example C98_example : exists out : R -> arr,
    (forall t, run evol_world (OGate (HamiltonianEvolution (TTup [2; 0]) (IInt 1))) (SDense (basis [0; 1; 1])) (evolution_values ham01 t)
       = Ok (Some (SDense (out t)))) /\
    (forall t, mean_pure 3 (controlled_hamiltonian (entry ham01) [1] [2; 0]) (amp (out t)) =
               mean_pure 3 (controlled_hamiltonian (entry ham01) [1] [2; 0]) (amp (basis [0; 1; 1]))).
Proof.
  destruct (C98_schroedinger_equation evol_world 3 (basis [0; 1; 1]) ham01 [2; 0] (IInt 1) [1]) as (out & E & _ & _ & M & _);
    [ex_side|apply ham01_matrix|apply ham01_hermitian|apply ham01_exponential|apply (cq_ints [1])|ex_side|].
  exists out; split; [intro t; apply E|exact M].
Qed.

(** C99 *)
Definition ex_hybrid_values : values := [("a", VNum 1); ("hamiltonian", VMat ham01); ("time_evolution", VNum 2)]%string.
Definition ex_hybrid_gates : list gate :=
  [gH (TInt 0) no_control None false; HamiltonianEvolution (TTup [2; 0]) (IInt 1); RX (PName "a") (TInt 1) (IInt 2) None false].
Definition ex_hybrid : oper := OQC 3 [OSeq (map OGate ex_hybrid_gates)] [].
Lemma ex_hybrid_sequence : sequence_of ex_hybrid ex_hybrid_gates.
Proof.
  change ex_hybrid_gates with (List.concat [List.concat [[gH (TInt 0) no_control None false]; [HamiltonianEvolution (TTup [2; 0]) (IInt 1)]; [RX (PName "a") (TInt 1) (IInt 2) None false]]]).
  apply so_qc. apply Forall2_cons; [|apply Forall2_nil]. apply so_seq. repeat (apply Forall2_cons; [apply so_gate|]). apply Forall2_nil.
Qed.
Lemma ex_hybrid_circuit : exists U, hybrid_circuit evol_world 3 ex_hybrid_values ex_hybrid_gates U.
Proof.
  eexists. apply hc_cons; [|apply hc_cons; [|apply hc_cons; [|apply hc_nil]]].
  - eapply (hg_library evol_world 3 ex_hybrid_values (gH (TInt 0) no_control None false) H_matrix [] [0]); [|reflexivity|reflexivity].
    split; [eapply gm_fixed; simpl; eauto 10|apply cq_default|reflexivity|ex_side].
  - eapply (hg_evolution evol_world 3 ex_hybrid_values [2; 0] (IInt 1) [1]); [reflexivity|reflexivity|apply ham01_matrix|apply ham01_hermitian|apply ham01_exponential|apply (cq_ints [1])|ex_side].
  - eapply (hg_library evol_world 3 ex_hybrid_values (RX (PName "a") (TInt 1) (IInt 2) None false) (RX_matrix (1 + 0)) [2] [1]); [|reflexivity|reflexivity].
    split; [eapply gm_rotation with (R_ := RX_matrix); simpl; eauto 10; eexists; split; reflexivity|apply (cq_ints [2])|reflexivity|ex_side].
Qed.
Theorem C99_run_hybrid_circuit : forall w n vals circuit gs U psi phi, sequence_of circuit gs -> hybrid_circuit w n vals gs U -> is_state n psi -> is_state n phi ->
    exists out out', run w circuit (SDense psi) vals = Ok (Some (SDense out)) /\ run w circuit (SDense phi) vals = Ok (Some (SDense out')) /\
      is_state n out /\ is_state n out' /\ veq n (amp out) (apply_kernel n U (amp psi)) /\ veq n (amp out') (apply_kernel n U (amp phi)) /\
      inner_product n (amp out) (amp out') = inner_product n (amp psi) (amp phi).
Proof. exact c99_run. Qed.
Print Assumptions C99_run_hybrid_circuit.
Theorem C99_run_hybrid_circuit_on_density_matrix : forall w n vals circuit gs U rho, set_order (set_iter w) -> sequence_of circuit gs -> hybrid_circuit w n vals gs U -> is_density n rho ->
    exists out, run w circuit (SDM rho) vals = Ok (Some (SDM out)) /\ is_density n out /\ keq n (rho_entry out) (sandwiched n U (rho_entry rho)).
Proof. exact c99_density. Qed.
Print Assumptions C99_run_hybrid_circuit_on_density_matrix.
Theorem C99_dagger_undoes_hybrid_circuit : forall w n vals gs U mg psi, gs <> [] -> hybrid_circuit w n vals gs U -> is_state n psi ->
    exists phi, apply_gates w (SDense psi) (GMany gs) vals UNITARY false mg = Ok (SDense phi) /\
      veq n (amp phi) (apply_kernel n U (amp psi)) /\
      apply_gates w (SDense phi) (GMany (rev gs)) vals DAGGER false mg = Ok (SDense psi).
Proof. exact c99_dagger. Qed.
Print Assumptions C99_dagger_undoes_hybrid_circuit.
Theorem C99_expectation_of_hybrid_circuit : forall w n vals circuit gs U psi sq obs Ks mode key,
    set_order (set_iter w) -> flat_values vals -> sequence_of circuit gs -> gs <> [] -> hybrid_circuit w n vals gs U -> is_state n psi ->
    obs <> [] -> Forall2 (observable_on w n vals sq) obs Ks -> In mode [AD; ADJOINT; GPSR] ->
    expectation w (SDense psi) circuit obs vals mode 0 key = Ok (map (fun K => mean_pure n K (apply_kernel n U (amp psi))) Ks).
Proof. exact c99_expectation. Qed.
Print Assumptions C99_expectation_of_hybrid_circuit.
Theorem C99_density_matrix_expectation_of_hybrid_circuit : forall w n vals circuit gs U rho obs Ks mode key,
    set_order (set_iter w) -> flat_values vals -> sequence_of circuit gs -> gs <> [] -> hybrid_circuit w n vals gs U -> is_density n rho ->
    obs <> [] -> Forall2 (density_ready w n vals) obs Ks -> In mode [AD; GPSR] ->
    expectation w (SDM rho) circuit obs vals mode 0 key = Ok (map (fun K => mean_density n K (sandwiched n U (rho_entry rho))) Ks).
Proof. exact c99_expectation_density. Qed.
Print Assumptions C99_density_matrix_expectation_of_hybrid_circuit.
Theorem C99_sample_hybrid_circuit : forall w n vals circuit gs U psi k, choice_contract w -> 1 <= n -> (1 <= k)%Z ->
    sequence_of circuit gs -> hybrid_circuit w n vals gs U -> is_state n psi ->
    fst (sample w (SDense psi) circuit vals k) =
      Ok (histogram n (choice w 0 (map (fun x => Cnorm2 (apply_kernel n U (amp psi) x)) (bitstrings n)) (Z.to_nat k))).
Proof. exact c99_sample. Qed.
Print Assumptions C99_sample_hybrid_circuit.
Example C99_example : exists U out xs,
    run evol_world ex_hybrid (SDense (basis [0; 1; 1])) ex_hybrid_values = Ok (Some (SDense out)) /\
    veq 3 (amp out) (apply_kernel 3 U (amp (basis [0; 1; 1]))) /\
    expectation evol_world (SDense (basis [0; 1; 1])) ex_hybrid [z0_obs] ex_hybrid_values GPSR 0 0 = Ok xs.
Proof.
  destruct ex_hybrid_circuit as (U & HC).
  destruct (C99_run_hybrid_circuit evol_world 3 ex_hybrid_values ex_hybrid ex_hybrid_gates U (basis [0; 1; 1]) (basis [0; 1; 1])) as (out & _ & E & _ & _ & _ & V & _);
    [exact ex_hybrid_sequence|exact HC|ex_side|ex_side|].
  exists U, out. eexists. split; [exact E|]. split; [exact V|].
  eapply (C99_expectation_of_hybrid_circuit evol_world 3 ex_hybrid_values ex_hybrid ex_hybrid_gates U (basis [0; 1; 1]) false) with (Ks := [ksum [gate_op Z_matrix [] [0]]]);
    [apply ex_world_order|left; reflexivity|exact ex_hybrid_sequence|discriminate|exact HC|ex_side|discriminate| |simpl; tauto].
  apply Forall2_cons; [|apply Forall2_nil]. apply z0_obs_on; lia.
Qed.
