(** * C40-C43, C45-C49, C75: expectation values.

    The vocabulary is in Spec.v, GateSpec.v, PropSpec.v, NoiseSpec.v, SampleSpec.v and ExpectSpec.v.  Every theorem is
    followed by an example that meets its hypotheses. *)
From Coq Require Import String List Arith Bool Reals Lia Lra ZArith Permutation Sorting.Sorted.
From Verif Require Import Cplx Py Ndarray OperatorUtils ApplyOperator Sparse Matrices Noise Gates Apply Composite Shots Gpsr Api
  Spec GateSpec PropSpec NoiseSpec SampleSpec ExpectSpec StructSpec PhysSpec AlgebraFacts TensorThm NoiseThm NoiseThm2 SeqThm ExpectThm ExpectThm2 ExpectThm3 Examples.
Import ListNotations.
Local Open Scope nat_scope.

(** C40 *)
Theorem C40_pure_and_density_matrix_expectations_agree : forall w n vals circuit gs psi rho obs Ks key,
    set_order (set_iter w) -> flat_values vals ->
    sequence_of circuit gs -> gs <> [] -> Forall (usable n vals) gs -> Forall dense_gate gs -> Forall noise_ok gs ->
    is_state n psi -> density_mat psi = Ok rho ->
    obs <> [] -> Forall2 (density_ready w n vals) obs Ks ->
    exists es, expectation w (SDM rho) circuit obs vals AD 0 key = Ok es /\ expectation w (SDense psi) circuit obs vals AD 0 key = Ok es.
Proof. exact c40_agree. Qed.
Print Assumptions C40_pure_and_density_matrix_expectations_agree.
Example C40_example : exists rho es, density_mat (basis [0; 0; 0]) = Ok rho /\
    expectation inc_world (SDM rho) ex_noisy_oper [ex_obs] ex_values AD 0 0 = Ok es /\
    expectation inc_world (SDense (basis [0; 0; 0])) ex_noisy_oper [ex_obs] ex_values AD 0 0 = Ok es.
Proof.
  destruct (AlgebraFacts.density_mat_spec 3 (basis [0; 0; 0]) ex_basis) as (rho & E & _). exists rho.
  destruct (C40_pure_and_density_matrix_expectations_agree inc_world 3 ex_values ex_noisy_oper ex_noisy_gates (basis [0; 0; 0]) rho [ex_obs] [ex_obs_op] 0) as (es & E1 & E2);
    [exact inc_world_order|exact ex_values_flat|exact ex_noisy_sequence|discriminate|exact ex_noisy_usable|exact ex_noisy_dense|exact ex_noisy_ok|exact ex_basis|exact E|discriminate
    |constructor; [exact ex_obs_ready|constructor]|].
  exists es; split; [exact E|split; assumption].
Qed.

(** C41: when the set of qubits of the observable is iterated in increasing order, the expectation is Re tr(O rho), rho
    being the density matrix after the circuit.  Missing: other orders, for which the statement is false. *)
Theorem C41_density_matrix_expectation_partial : forall w n vals circuit gs st r obs Ks key,
    set_order (set_iter w) -> flat_values vals ->
    sequence_of circuit gs -> gs <> [] -> Forall dense_gate gs -> state_of n st ->
    (exists a, st = SDM a) \/ (exists g, In g gs /\ noise g <> None) ->
    noisy_run n vals gs (density_of st) r ->
    obs <> [] -> Forall2 (density_ready w n vals) obs Ks ->
    expectation w st circuit obs vals AD 0 key = Ok (map (fun K => mean_density n K r) Ks).
Proof. exact c41_formula. Qed.
Print Assumptions C41_density_matrix_expectation_partial.
Example C41_example : exists r, noisy_run 3 ex_values ex_noisy_gates (rho_entry (mixed 3)) r /\
    expectation inc_world (SDM (mixed 3)) ex_noisy_oper [ex_obs] ex_values AD 0 0 = Ok [mean_density 3 ex_obs_op r].
Proof.
  destruct (noisy_run_exists 3 ex_values ex_noisy_gates ex_noisy_usable ex_noisy_ok (rho_entry (mixed 3))) as (r & HR).
  exists r; split; [exact HR|].
  apply (C41_density_matrix_expectation_partial inc_world 3 ex_values ex_noisy_oper ex_noisy_gates (SDM (mixed 3)) r [ex_obs] [ex_obs_op] 0);
    [exact inc_world_order|exact ex_values_flat|exact ex_noisy_sequence|discriminate|exact ex_noisy_dense|apply mixed_density|left; eauto|exact HR|discriminate
    |constructor; [exact ex_obs_ready|constructor]].
Qed.
(** On every register and for every two qubits a < b whose set is iterated as b, a, the observable Z(a) + X(b) gets the
    value 1 in a basis state where its expectation is -1. *)
Theorem C41_set_order_refuted : forall w n a b, set_order (set_iter w) -> a < b -> b < n -> set_iter w [a; b] = [b; a] ->
    exists rho K, is_density n rho /\ hermitian n (rho_entry rho) /\ positive n (rho_entry rho) /\ ktrace n (rho_entry rho) = C1 /\
      observable_on w n [] false (zx_obs a b) K /\ mean_density n K (rho_entry rho) = (-1)%R /\
      call w [] (OObs (zx_obs a b)) (Some (SDM rho)) = Ok (Some (SDense (scalar (RtoC 1)))).
Proof. exact c41_refuted. Qed.
Print Assumptions C41_set_order_refuted.
Example C41_refuted_example : set_order (set_iter ex_world) /\ set_iter ex_world [1; 8] = [8; 1].
Proof. split; [exact ex_world_order|reflexivity]. Qed.
(** What the code computes in every order: the expectation of the observable in which the i-th smallest qubit of the set is
    replaced by the i-th qubit of the iteration.  This is the expectation of the observable itself if the order is increasing. *)
Theorem C41_any_set_order_partial : forall w n vals circuit gs st r l K s s' key,
    set_order (set_iter w) -> flat_values vals ->
    sequence_of circuit gs -> gs <> [] -> Forall dense_gate gs -> state_of n st ->
    (exists a, st = SDM a) \/ (exists g, In g gs /\ noise g <> None) ->
    noisy_run n vals gs (density_of st) r ->
    observable_on w n vals false l K -> support w (OObs l) = Ok s -> StronglySorted lt s' -> Permutation s' s ->
    exists f, permutes n f /\ map f s' = s /\ (forall q, ~ In q s -> f q = q) /\
      expectation w st circuit [l] vals AD 0 key = Ok [mean_density n (fun x y => K (read_through n f x) (read_through n f y)) r].
Proof. exact c41_exact. Qed.
Print Assumptions C41_any_set_order_partial.
Example C41_any_order_example : exists r f, noisy_run 3 ex_values ex_noisy_gates (rho_entry (mixed 3)) r /\ f 0 = 2 /\ f 2 = 0 /\ f 1 = 1 /\
    expectation ex_world (SDM (mixed 3)) ex_noisy_oper [zx_obs 0 2] ex_values AD 0 0 =
    Ok [mean_density 3 (fun x y => ksum [gate_op Z_matrix [] [0]; gate_op X_matrix [] [2]] (bits_at x [2; 1; 0]) (bits_at y [2; 1; 0])) r].
Proof.
  destruct (noisy_run_exists 3 ex_values ex_noisy_gates ex_noisy_usable ex_noisy_ok (rho_entry (mixed 3))) as (r & HR).
  destruct (C41_any_set_order_partial ex_world 3 ex_values ex_noisy_oper ex_noisy_gates (SDM (mixed 3)) r (zx_obs 0 2)
              (ksum [gate_op Z_matrix [] [0]; gate_op X_matrix [] [2]]) [2; 0] [0; 2] 0) as (f & _ & Ef & Eo & E);
    [exact ex_world_order|exact ex_values_flat|exact ex_noisy_sequence|discriminate|exact ex_noisy_dense|apply mixed_density|left; eauto|exact HR
    |apply zx_denotes; lia|reflexivity|repeat constructor|apply perm_swap|].
  simpl in Ef. injection Ef as E0 E2. assert (E1 : f 1 = 1) by (apply Eo; simpl; lia).
  exists r, f. do 4 (split; [assumption|]). rewrite E. unfold read_through. cbn [seq map]. rewrite E0, E1, E2. reflexivity.
Qed.

(** C42 *)
Theorem C42_expectation_is_the_mean : forall w n vals circuit gs U psi sq obs Ks key,
    set_order (set_iter w) -> flat_values vals ->
    sequence_of circuit gs -> gs <> [] -> Forall dense_gate gs -> Forall noiseless gs -> circuit_on n vals gs U -> is_state n psi ->
    obs <> [] -> Forall2 (observable_on w n vals sq) obs Ks ->
    expectation w (SDense psi) circuit obs vals AD 0 key = Ok (map (fun K => mean_pure n K (apply_kernel n U (amp psi))) Ks).
Proof. exact c42_formula. Qed.
Print Assumptions C42_expectation_is_the_mean.
Example C42_example : exists U, circuit_on 3 ex_values ex_circuit U /\
    expectation ex_world (SDense (basis [0; 0; 0])) (OQC 3 (map OGate ex_circuit) []) [ex_obs] ex_values AD 0 0 =
      Ok [mean_pure 3 ex_obs_op (apply_kernel 3 U (amp (basis [0; 0; 0])))].
Proof.
  destruct (ApplyThm.usable_circuit 3 ex_values ex_circuit ex_circuit_usable) as (U & HC). exists U; split; [exact HC|].
  apply (C42_expectation_is_the_mean ex_world 3 ex_values _ ex_circuit U (basis [0; 0; 0]) true [ex_obs] [ex_obs_op] 0);
    [exact ex_world_order|exact ex_values_flat|exact ex_circuit_sequence|discriminate|exact ex_circuit_dense|exact ex_circuit_noiseless|exact HC|exact ex_basis|discriminate
    |constructor; [apply ex_obs_on|constructor]].
Qed.
Theorem C42_expectation_is_linear : forall w n vals circuit gs U psi sq l1 K1 l2 K2 a Ka p c key,
    set_order (set_iter w) -> flat_values vals ->
    sequence_of circuit gs -> gs <> [] -> Forall dense_gate gs -> Forall noiseless gs -> circuit_on n vals gs U -> is_state n psi ->
    observable_on w n vals sq l1 K1 -> observable_on w n vals sq l2 K2 ->
    denotes w n vals sq a Ka -> param_value p vals = Ok c ->
    let e obs := expectation w (SDense psi) circuit obs vals AD 0 key in
    exists e1 e2 ea, e [l1] = Ok [e1] /\ e [l2] = Ok [e2] /\ e [[a]] = Ok [ea] /\
      e [l1; l2] = Ok [e1; e2] /\ e [l1 ++ l2] = Ok [e1 + e2]%R /\ e [[OAdd l1; OAdd l2]] = Ok [e1 + e2]%R /\
      e [[OScale [a] p]] = Ok [c * ea]%R.
Proof. exact c42_linear. Qed.
Print Assumptions C42_expectation_is_linear.

(** C43: sequences of gates, in any nesting.  Missing: Scale and Add in the circuit, for which the statement is false. *)
Theorem C43_run_and_expectation_partial : forall w n vals circuit gs st,
    set_order (set_iter w) -> flat_values vals -> sequence_of circuit gs -> gs <> [] ->
    Forall (usable n vals) gs -> Forall dense_gate gs -> Forall noise_ok gs -> state_of n st ->
    exists out, run w circuit st vals = Ok (Some out) /\ state_of n out /\
      forall obs Ks key, obs <> [] -> Forall2 (obs_for w n vals out) obs Ks ->
        expectation w st circuit obs vals AD 0 key = Ok (map (fun K => mean n K out) Ks).
Proof. exact c43_sequences. Qed.
Print Assumptions C43_run_and_expectation_partial.
Example C43_example : exists out, run inc_world ex_noisy_oper (SDense (basis [0; 0; 0])) ex_values = Ok (Some out) /\ state_of 3 out.
Proof.
  destruct (C43_run_and_expectation_partial inc_world 3 ex_values ex_noisy_oper ex_noisy_gates (SDense (basis [0; 0; 0]))) as (out & E & So & _);
    [exact inc_world_order|exact ex_values_flat|exact ex_noisy_sequence|discriminate|exact ex_noisy_usable|exact ex_noisy_dense|exact ex_noisy_ok|exact ex_basis|].
  eauto.
Qed.
Theorem C43_scale_in_a_circuit_refuted : forall w key, exists out,
    run w (OpSequence [Scale (AOp x0_gate) (PNum 2)]) (SDense (zero_state 1)) [] = Ok (Some (SDense out)) /\ is_state 1 out /\
    observable_on w 1 [] false [z0_gate] (ksum [gate_op Z_matrix [] [0]]) /\ mean_pure 1 (ksum [gate_op Z_matrix [] [0]]) (amp out) = (-4)%R /\
    expectation w (SDense (zero_state 1)) (OpSequence [Scale (AOp x0_gate) (PNum 2)]) [[z0_gate]] [] AD 0 key = Ok [(-1)%R].
Proof. exact c43_refuted. Qed.
Print Assumptions C43_scale_in_a_circuit_refuted.
Theorem C43_add_in_a_circuit_refuted : forall w key, exists out,
    run w (OpSequence [Add (AList [x0_gate; z0_gate])]) (SDense (zero_state 1)) [] = Ok (Some (SDense out)) /\ is_state 1 out /\
    mean_pure 1 (ksum [gate_op Z_matrix [] [0]]) (amp out) = 0%R /\
    expectation w (SDense (zero_state 1)) (OpSequence [Add (AList [x0_gate; z0_gate])]) [[z0_gate]] [] AD 0 key = Ok [(-1)%R].
Proof. exact c43_refuted_add. Qed.
Print Assumptions C43_add_in_a_circuit_refuted.
Theorem C43_scaled_circuit_refuted : forall w st a p obs vals key, obs <> [] -> flat_values vals ->
    expectation w st (Scale a p) obs vals AD 0 key = Err AttributeError.
Proof. exact c43_refuted_scale. Qed.
Print Assumptions C43_scaled_circuit_refuted.
Example C43_scaled_example : expectation ex_world (SDense (basis [0; 0; 0])) (Scale (AOp (OQC 3 (map OGate ex_circuit) [])) (PNum 1)) [ex_obs] ex_values AD 0 0 = Err AttributeError.
Proof. apply C43_scaled_circuit_refuted; [discriminate|exact ex_values_flat]. Qed.

(** What the code computes for any operation but a Scale, in every mode and with any number of shots: the expectation of the plain sequence
    of all gates in it.  Scale factors are dropped and the summands of an Add are applied one after the other. *)
Theorem C43_expectation_flattens_partial : forall w st o obs vals mode k key, (forall l p, o <> OScale l p) ->
    expectation w st o obs vals mode k key = expectation w st (OSeq (map OGate (all_gates o))) obs vals mode k key.
Proof. exact c43_flatten. Qed.
Print Assumptions C43_expectation_flattens_partial.
Example C43_flatten_example : expectation ex_world (SDense (zero_state 1)) (OpSequence [Scale (AOp x0_gate) (PNum 2); Add (AList [x0_gate; z0_gate])]) [[z0_gate]] [] GPSR 0 0 =
    expectation ex_world (SDense (zero_state 1)) (OSeq [x0_gate; x0_gate; z0_gate]) [[z0_gate]] [] GPSR 0 0.
Proof. apply (C43_expectation_flattens_partial ex_world (SDense (zero_state 1)) (OpSequence [Scale (AOp x0_gate) (PNum 2); Add (AList [x0_gate; z0_gate])])). discriminate. Qed.

(** C45: gates, nested sequences of gates, Scales, and lists of arbitrary operations.  Missing: Scale of an Add (or of a
    sequence containing one), for which the statement is false. *)
Theorem C45_scale_of_an_operation_partial : forall w vals o p c st out, param_value p vals = Ok c ->
    (exists gs, sequence_of o gs) \/ (exists l q, o = OScale l q) ->
    run w o st vals = Ok (Some out) -> scalable out ->
    exists out', run w (Scale (AOp o) p) st vals = Ok (Some out') /\ scaled c out out'.
Proof. exact c45_operation. Qed.
Print Assumptions C45_scale_of_an_operation_partial.
Example C45_example : exists out out', run ex_world (OQC 3 (map OGate ex_circuit) []) (SDense (basis [0; 0; 0])) ex_values = Ok (Some out) /\
    run ex_world (Scale (AOp (OQC 3 (map OGate ex_circuit) [])) (PName "b")) (SDense (basis [0; 0; 0])) ex_values = Ok (Some out') /\ scaled 2 out out'.
Proof.
  destruct (ApplyThm.usable_circuit 3 ex_values ex_circuit ex_circuit_usable) as (U & HC).
  destruct (call_pure ex_world 3 ex_values _ ex_circuit U (basis [0; 0; 0]) ex_circuit_sequence ex_circuit_dense ex_circuit_noiseless HC ex_basis) as (out & E & _).
  destruct (C45_scale_of_an_operation_partial ex_world ex_values (OQC 3 (map OGate ex_circuit) []) (PName "b") 2 (SDense (basis [0; 0; 0])) (SDense out)) as (out' & E' & S);
    [reflexivity|left; exists ex_circuit; exact ex_circuit_sequence|exact E|exact Logic.I|]. eauto 6.
Qed.
Theorem C45_scale_of_a_list_partial : forall w vals l p c st out, param_value p vals = Ok c ->
    run w (OpSequence l) st vals = Ok (Some out) -> scalable out ->
    exists out', run w (Scale (AList l) p) st vals = Ok (Some out') /\ scaled c out out'.
Proof. exact c45_list. Qed.
Print Assumptions C45_scale_of_a_list_partial.
Theorem C45_scale_of_a_sum_refuted : forall w, exists out out',
    run w (Add (AList [x0_gate; z0_gate])) (SDense (zero_state 1)) [] = Ok (Some (SDense out)) /\
    run w (Scale (AOp (Add (AList [x0_gate; z0_gate]))) (PNum 1)) (SDense (zero_state 1)) [] = Ok (Some (SDense out')) /\
    amp out [0] = C1 /\ amp out [1] = C1 /\ amp out' [0] = C0 /\ amp out' [1] = Copp C1.
Proof. exact c45_refuted. Qed.
Print Assumptions C45_scale_of_a_sum_refuted.
(** What Scale of any operation but a Scale does: the sequence of all gates in it, times the factor *)
Theorem C45_scale_flattens_partial : forall w o p st vals, (forall l q, o <> OScale l q) ->
    run w (Scale (AOp o) p) st vals = run w (Scale (AList [OpSequence (map OGate (all_gates o))]) p) st vals.
Proof. exact c45_flatten. Qed.
Print Assumptions C45_scale_flattens_partial.
Example C45_flatten_example : run ex_world (Scale (AOp (Add (AList [x0_gate; z0_gate]))) (PNum 3)) (SDense (zero_state 1)) [] =
    run ex_world (Scale (AList [OpSequence [x0_gate; z0_gate]]) (PNum 3)) (SDense (zero_state 1)) [].
Proof. apply (C45_scale_flattens_partial ex_world (Add (AList [x0_gate; z0_gate]))). discriminate. Qed.

(** C46 *)
Theorem C46_rejected_calls : forall w st circuit obs vals n_shots key,
    ((n_shots < 0)%Z -> expectation w st circuit obs vals AD n_shots key = Err ValueError /\
                       expectation w st circuit obs vals GPSR n_shots key = Err ValueError) /\
    (forall rho, st = SDM rho -> expectation w st circuit obs vals ADJOINT n_shots key = Err TypeError) /\
    expectation w st circuit obs vals OtherMode n_shots key = Err ValueError.
Proof. exact c46_rejects. Qed.
Print Assumptions C46_rejected_calls.
Theorem C46_accepted_calls : forall w n vals circuit gs st mode k key,
    set_order (set_iter w) -> flat_values vals -> sequence_of circuit gs -> gs <> [] ->
    Forall (usable n vals) gs -> Forall dense_gate gs -> state_of n st ->
    (mode = AD /\ k = 0%Z \/ mode = GPSR /\ k = 0%Z) /\ Forall noise_ok gs \/ mode = ADJOINT /\ (exists psi, st = SDense psi) /\ Forall noiseless gs ->
    exists out, run w circuit st vals = Ok (Some out) /\
      forall obs Ks, obs <> [] -> Forall2 (obs_for w n vals out) obs Ks ->
        expectation w st circuit obs vals mode k key = Ok (map (fun K => mean n K out) Ks).
Proof. exact c46_accepts. Qed.
Print Assumptions C46_accepted_calls.
Example C46_example : exists out, run ex_world (OQC 3 (map OGate ex_circuit) []) (SDense (basis [0; 0; 0])) ex_values = Ok (Some out) /\
    forall obs Ks, obs <> [] -> Forall2 (obs_for ex_world 3 ex_values out) obs Ks ->
    expectation ex_world (SDense (basis [0; 0; 0])) (OQC 3 (map OGate ex_circuit) []) obs ex_values ADJOINT 7 0 = Ok (map (fun K => mean 3 K out) Ks).
Proof.
  apply (C46_accepted_calls ex_world 3 ex_values _ ex_circuit); [exact ex_world_order|exact ex_values_flat|exact ex_circuit_sequence|discriminate|exact ex_circuit_usable|exact ex_circuit_dense
    |exact ex_basis|right; split; [reflexivity|split; [eauto|exact ex_circuit_noiseless]]].
Qed.

(** C47: noise-free circuits.  Missing: circuits with noise, for which the ADJOINT mode fails. *)
Theorem C47_modes_agree_partial : forall w st circuit obs vals key1 key2 key3, flat_values vals -> scalable st -> noise_free circuit -> obs <> [] ->
    expectation w st circuit obs vals ADJOINT 0 key2 = expectation w st circuit obs vals AD 0 key1 /\
    expectation w st circuit obs vals GPSR 0 key3 = expectation w st circuit obs vals AD 0 key1.
Proof. exact c47_modes. Qed.
Print Assumptions C47_modes_agree_partial.
Theorem C47_gpsr_agrees_on_every_state_partial : forall w st circuit obs vals key key', flat_values vals -> obs <> [] ->
    expectation w st circuit obs vals GPSR 0 key = expectation w st circuit obs vals AD 0 key'.
Proof. exact c47_gpsr. Qed.
Print Assumptions C47_gpsr_agrees_on_every_state_partial.
Example C47_example : noise_free (OQC 3 (map OGate ex_circuit) []) /\ scalable (SDense (basis [0; 0; 0])) /\ flat_values ex_values.
Proof. split; [intros gs E; injection E as <-; exact ex_circuit_noiseless|split; [exact Logic.I|exact ex_values_flat]]. Qed.
Theorem C47_adjoint_mode_with_noise_refuted : forall w n vals circuit gs psi obs Ks k key key',
    set_order (set_iter w) -> flat_values vals -> sequence_of circuit gs ->
    Forall (usable n vals) gs -> Forall dense_gate gs -> Forall noise_ok gs -> (exists g, In g gs /\ noise g <> None) ->
    is_state n psi -> obs <> [] -> Forall2 (density_ready w n vals) obs Ks ->
    (exists xs, expectation w (SDense psi) circuit obs vals AD 0 key = Ok xs) /\
    (exists e, expectation w (SDense psi) circuit obs vals ADJOINT k key' = Err e).
Proof. exact c47_refuted. Qed.
Print Assumptions C47_adjoint_mode_with_noise_refuted.
Example C47_refuted_example : exists e, expectation inc_world (SDense (basis [0; 0; 0])) ex_noisy_oper [ex_obs] ex_values ADJOINT 0 0 = Err e.
Proof.
  apply (C47_adjoint_mode_with_noise_refuted inc_world 3 ex_values ex_noisy_oper ex_noisy_gates (basis [0; 0; 0]) [ex_obs] [ex_obs_op] 0 0 0);
    [exact inc_world_order|exact ex_values_flat|exact ex_noisy_sequence|exact ex_noisy_usable|exact ex_noisy_dense|exact ex_noisy_ok|eexists; split; [right; left; reflexivity|discriminate]
    |exact ex_basis|discriminate|constructor; [exact ex_obs_ready|constructor]].
Qed.

(** C48, C49: separate values are routed as documented in AD mode without shots; every other mode rejects them. *)
Theorem C48_separate_values_in_other_modes_refuted : forall w v o t key, lookup v "a" = Ok (VNum t) -> exists x,
    expectation w (SDense (zero_state 1)) (OSeq [OGate rxa_gate]) [[z0_gate]] [("circuit", VDict v); ("observables", VDict o)]%string AD 0 key = Ok [x] /\
    (forall k, expectation w (SDense (zero_state 1)) (OSeq [OGate rxa_gate]) [[z0_gate]] [("circuit", VDict v); ("observables", VDict o)]%string ADJOINT k key = Err KeyError) /\
    expectation w (SDense (zero_state 1)) (OSeq [OGate rxa_gate]) [[z0_gate]] [("circuit", VDict v); ("observables", VDict o)]%string GPSR 0 key = Err KeyError /\
    (forall k, (0 < k)%Z ->
       expectation w (SDense (zero_state 1)) (OSeq [OGate rxa_gate]) [[z0_gate]] [("circuit", VDict v); ("observables", VDict o)]%string AD k key = Err KeyError /\
       expectation w (SDense (zero_state 1)) (OSeq [OGate rxa_gate]) [[z0_gate]] [("circuit", VDict v); ("observables", VDict o)]%string GPSR k key = Err KeyError).
Proof. exact c48_refuted. Qed.
Print Assumptions C48_separate_values_in_other_modes_refuted.
Example C48_example : exists t, lookup [("a", VNum 3)]%string "a" = Ok (VNum t).
Proof. eexists; reflexivity. Qed.
Theorem C49_separate_values_in_ad_mode : forall w n vals v o circuit gs st,
    set_order (set_iter w) -> routed vals v o -> sequence_of circuit gs -> gs <> [] ->
    Forall (usable n v) gs -> Forall dense_gate gs -> Forall noise_ok gs -> state_of n st ->
    exists out, run w circuit st v = Ok (Some out) /\ state_of n out /\
      forall obs Ks key, obs <> [] -> Forall2 (obs_for w n o out) obs Ks ->
        expectation w st circuit obs vals AD 0 key = Ok (map (fun K => mean n K out) Ks).
Proof. exact c49_routed. Qed.
Print Assumptions C49_separate_values_in_ad_mode.
Example C49_example : exists out, run inc_world ex_noisy_oper (SDense (basis [0; 0; 0])) ex_values = Ok (Some out) /\
    forall obs Ks, obs <> [] -> Forall2 (obs_for inc_world 3 [("b", VNum 5)]%string out) obs Ks ->
    expectation inc_world (SDense (basis [0; 0; 0])) ex_noisy_oper obs [("observables", VDict [("b", VNum 5)]); ("circuit", VDict ex_values)]%string AD 0 0 = Ok (map (fun K => mean 3 K out) Ks).
Proof.
  destruct (C49_separate_values_in_ad_mode inc_world 3 [("observables", VDict [("b", VNum 5)]); ("circuit", VDict ex_values)]%string ex_values [("b", VNum 5)]%string ex_noisy_oper ex_noisy_gates (SDense (basis [0; 0; 0]))) as (out & E & _ & H);
    [exact inc_world_order|left; split; reflexivity|exact ex_noisy_sequence|discriminate|exact ex_noisy_usable|exact ex_noisy_dense|exact ex_noisy_ok|exact ex_basis|].
  exists out; split; [exact E|]. intros obs Ks NE F. apply H; assumption.
Qed.

(** C75 *)
Theorem C75_missing_parameter_raises : forall w n v v' s gs ot gr mg, extends v v' -> Forall (usable n v') gs -> ot <> JACOBIAN ->
    (exists g name, In g gs /\ In name (names_of_gate g) /\ lookup v name = Err KeyError) ->
    apply_gates w s (GMany gs) v ot gr mg = Err KeyError.
Proof. exact c75_missing. Qed.
Print Assumptions C75_missing_parameter_raises.
Example C75_missing_example : apply_gates ex_world (SDM (mixed 3)) (GMany ex_circuit) [("b", VNum 2)]%string DAGGER true true = Err KeyError.
Proof.
  apply (C75_missing_parameter_raises ex_world 3 _ ex_values); [|exact ex_circuit_usable|discriminate|].
  - intros s x. cbn [lookup ex_values]. destruct (String.eqb s "b") eqn:E; [|discriminate]. apply String.eqb_eq in E; subst s. intro H; exact H.
  - eexists; exists "a"%string. split; [left; reflexivity|]. split; [left; reflexivity|reflexivity].
Qed.
Theorem C75_missing_parameter_in_expectation : forall w n v v' st circuit gs obs key mode k, flat_values v -> extends v v' -> sequence_of circuit gs -> Forall (usable n v') gs ->
    (exists g name, In g gs /\ In name (names_of_gate g) /\ lookup v name = Err KeyError) -> obs <> [] ->
    mode = AD \/ mode = GPSR \/ mode = ADJOINT -> (0 <= k)%Z -> (forall rho, st = SDM rho -> mode <> ADJOINT) ->
    expectation w st circuit obs v mode k key = Err KeyError.
Proof. exact c75_missing_expectation. Qed.
Print Assumptions C75_missing_parameter_in_expectation.
Theorem C75_unused_values_in_apply_gates : forall w s ga v v' ot gr mg, agree_on (flat_map names_of_gate (gate_list ga)) v v' ->
    apply_gates w s ga v ot gr mg = apply_gates w s ga v' ot gr mg.
Proof. exact c75_unused_gates. Qed.
Print Assumptions C75_unused_values_in_apply_gates.
Theorem C75_unused_values_in_run : forall w o st v v', agree_on (names_of o) v v' -> run w o st v = run w o st v' /\ forall fs, tensor w v o fs = tensor w v' o fs.
Proof. exact c75_unused_run. Qed.
Print Assumptions C75_unused_values_in_run.
Theorem C75_unused_values_in_expectation : forall w st circuit obs v v' mode n_shots key,
    flat_values v -> flat_values v' -> agree_on (names_of circuit ++ flat_map names_of (List.concat obs)) v v' ->
    expectation w st circuit obs v mode n_shots key = expectation w st circuit obs v' mode n_shots key.
Proof. exact c75_unused_expectation. Qed.
Print Assumptions C75_unused_values_in_expectation.
Example C75_unused_example : agree_on (names_of (OQC 3 (map OGate ex_circuit) []) ++ flat_map names_of (List.concat [ex_obs])) ex_values (("c", VNum 7) :: ex_values)%string.
Proof. intros s H. cbn in H. repeat (destruct H as [<-|H]; [reflexivity|]). destruct H. Qed.
