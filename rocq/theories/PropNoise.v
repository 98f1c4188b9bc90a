(** * C25-C32: noise channels and noisy evolution.

    The vocabulary is in Spec.v, GateSpec.v, PropSpec.v and NoiseSpec.v.  Every theorem is followed by an example
    that meets its hypotheses. *)
From Coq Require Import List String Arith Bool Reals Lia Lra Permutation Sorted.
From Verif Require Import Cplx Py Ndarray OperatorUtils ApplyOperator Sparse Matrices Noise Gates Apply Composite Api
  Spec GateSpec PropSpec NoiseSpec PhysSpec ApplyThm KrausThm NoiseThm NoiseThm2 KrausThm2 Examples.
Import ListNotations.
Local Open Scope nat_scope.

(** the noise instances and the noisy gates of the examples *)
Definition ex_gad : noise_inst := mkNoise GENERALIZED_AMPLITUDE_DAMPING (PTuple [1 / 4; 1 / 3]%R).
Definition ex_pauli : noise_inst := mkNoise PAULI_CHANNEL (PTuple [1 / 4; 1 / 3; 1 / 5]%R).
Definition ex_noisy : list gate :=
  [RY (PName "a") (TInt 2) (IInt 0) (Some [ex_gad; ex_pauli]) false; SWAP (TTup [0; 1]) no_control None false;
   gH (TInt 1) no_control (Some [ex_pauli]) false]%string.
Lemma ex_gad_valid : well_typed ex_gad /\ valid_parameter ex_gad.
Proof. split; [cbn; lia|cbn; unfold is_prob; repeat constructor; lra]. Qed.
Lemma ex_pauli_valid : well_typed ex_pauli /\ valid_parameter ex_pauli.
Proof. split; [cbn; lia|cbn; unfold is_prob; split; [repeat constructor; lra|lra]]. Qed.
Lemma ex_noisy_ok : Forall (usable 3 ex_values) ex_noisy /\ Forall dense_gate ex_noisy /\ Forall noise_ok ex_noisy.
Proof.
  split; [|split].
  - constructor; [|constructor; [|constructor; [|constructor]]].
    + do 3 eexists; split; [eapply gm_rotation with (R_ := RY_matrix); simpl; eauto; eexists; split; reflexivity|apply (cq_ints [0])|reflexivity|ex_side].
    + do 3 eexists; split; [apply gm_SWAP; reflexivity|apply cq_default|reflexivity|ex_side].
    + do 3 eexists; split; [eapply gm_fixed; simpl; eauto 10|apply cq_default|reflexivity|ex_side].
  - repeat constructor.
  - constructor; [|constructor; [|constructor; [|constructor]]]; cbn; [split; [reflexivity|]|exact Logic.I|split; [reflexivity|]].
    + constructor; [apply ex_gad_valid|constructor; [apply ex_pauli_valid|constructor]].
    + constructor; [apply ex_pauli_valid|constructor].
Qed.

(** C25 *)
Theorem C25_kraus_trace_preserving : forall i ks, kraus i = Ok ks ->
    Forall (is_matrix 1) ks /\
    keq 1 (ksum (map (fun K => kmul 1 (kadj (entry K)) (entry K)) ks)) kid.
Proof. exact c25_trace_preserving. Qed.
Print Assumptions C25_kraus_trace_preserving.
Example C25_example : exists ks, kraus ex_gad = Ok ks /\ List.length ks = 4 /\
    keq 1 (ksum (map (fun K => kmul 1 (kadj (entry K)) (entry K)) ks)) kid.
Proof.
  destruct ex_gad_valid as [T V]. destruct (c26_valid ex_gad T V) as (ks & E & _). exists ks; split; [exact E|split].
  - revert E. unfold kraus; cbn. rewrite !(proj2 (bad_prob_spec _)) by (unfold is_prob; lra). intro E; injection E as <-; reflexivity.
  - apply (C25_kraus_trace_preserving ex_gad ks E).
Qed.

(** C26 *)
Theorem C26_valid_probability_accepted : forall i, well_typed i -> valid_parameter i ->
    exists ks, kraus i = Ok ks /\ ks <> [] /\ Forall (is_matrix 1) ks.
Proof. exact c26_valid. Qed.
Print Assumptions C26_valid_probability_accepted.
Theorem C26_invalid_probability_rejected : forall i, well_typed i -> (kraus i = Err ValueError <-> ~ valid_parameter i).
Proof. exact c26_invalid. Qed.
Print Assumptions C26_invalid_probability_rejected.
Example C26_example : kraus (mkNoise PAULI_CHANNEL (PTuple [1 / 2; 1 / 2; 1 / 2]%R)) = Err ValueError.
Proof.
  apply (C26_invalid_probability_rejected (mkNoise PAULI_CHANNEL (PTuple [1 / 2; 1 / 2; 1 / 2]%R))); [cbn; lia|].
  intros [_ H]; cbn in H; unfold is_prob in H; lra.
Qed.
Example C26_accepted_example : exists ks, kraus ex_pauli = Ok ks /\ ks <> [] /\ Forall (is_matrix 1) ks.
Proof. apply C26_valid_probability_accepted; apply ex_pauli_valid. Qed.

(** C27 *)
Theorem C27_channels_as_documented : forall i ks rho, kraus i = Ok ks ->
    exists D, documented_channel i rho = Some D /\
      keq 1 (ksum (map (fun K => sandwiched 1 (entry K) rho) ks)) D.
Proof. exact c27_documented. Qed.
Print Assumptions C27_channels_as_documented.
Example C27_example : exists D, documented_channel ex_gad I_matrix = Some D /\ exists ks, kraus ex_gad = Ok ks /\
    keq 1 (ksum (map (fun K => sandwiched 1 (entry K) I_matrix) ks)) D.
Proof.
  destruct ex_gad_valid as [T V]. destruct (c26_valid ex_gad T V) as (ks & E & _).
  destruct (C27_channels_as_documented ex_gad ks I_matrix E) as (D & ED & K). exists D; split; [exact ED|]. exists ks; auto.
Qed.

(** C28: for lists of gates and for single gates, from a density matrix and from a state vector *)
Theorem C28_noisy_circuit_on_density_matrix : forall w n vals gs rho rho' mg,
    set_order (set_iter w) -> gs <> [] -> Forall dense_gate gs -> is_density n rho ->
    noisy_run n vals gs (rho_entry rho) rho' ->
    exists out, apply_gates w (SDM rho) (GMany gs) vals UNITARY false mg = Ok (SDM out) /\ is_density n out /\
                keq n (rho_entry out) rho'.
Proof. exact c28_circuit. Qed.
Print Assumptions C28_noisy_circuit_on_density_matrix.
Theorem C28_noisy_circuit_on_state_vector : forall w n vals gs psi rho' mg,
    set_order (set_iter w) -> gs <> [] -> Forall dense_gate gs -> (exists g, In g gs /\ noise g <> None) -> is_state n psi ->
    noisy_run n vals gs (fun x y => Cmul (amp psi x) (Cconj (amp psi y))) rho' ->
    exists out, apply_gates w (SDense psi) (GMany gs) vals UNITARY false mg = Ok (SDM out) /\ is_density n out /\
                keq n (rho_entry out) rho'.
Proof. exact c28_circuit_pure. Qed.
Print Assumptions C28_noisy_circuit_on_state_vector.
Theorem C28_noisy_gate_on_density_matrix : forall w n vals g M cs q l rho rho' gr mg,
    set_order (set_iter w) -> gate_on n vals g M cs [q] -> dense_gate g -> noise g = Some l -> is_density n rho ->
    through n q l (sandwiched n (gate_op M cs [q]) (rho_entry rho)) rho' ->
    exists out, apply_gates w (SDM rho) (GOne g) vals UNITARY gr mg = Ok (SDM out) /\ is_density n out /\
                keq n (rho_entry out) rho'.
Proof. exact c28_gate. Qed.
Print Assumptions C28_noisy_gate_on_density_matrix.
Theorem C28_noisy_gate_on_state_vector : forall w n vals g M cs q l psi rho' gr mg,
    set_order (set_iter w) -> gate_on n vals g M cs [q] -> dense_gate g -> noise g = Some l -> is_state n psi ->
    through n q l (sandwiched n (gate_op M cs [q]) (fun x y => Cmul (amp psi x) (Cconj (amp psi y)))) rho' ->
    exists out, apply_gates w (SDense psi) (GOne g) vals UNITARY gr mg = Ok (SDM out) /\ is_density n out /\
                keq n (rho_entry out) rho'.
Proof. exact c28_gate_pure. Qed.
Print Assumptions C28_noisy_gate_on_state_vector.
Example C28_example : exists rho' out, noisy_run 3 ex_values ex_noisy (rho_entry (mixed 3)) rho' /\
    apply_gates ex_world (SDM (mixed 3)) (GMany ex_noisy) ex_values UNITARY false true = Ok (SDM out) /\ keq 3 (rho_entry out) rho'.
Proof.
  destruct ex_noisy_ok as (U & D & N). destruct (noisy_run_exists 3 ex_values ex_noisy U N (rho_entry (mixed 3))) as (r & R).
  destruct (C28_noisy_circuit_on_density_matrix ex_world 3 ex_values ex_noisy (mixed 3) r true ex_world_order) as (out & E & _ & K);
    [discriminate|exact D|apply mixed_density|exact R|exists r, out; auto].
Qed.

(** C29 *)
Theorem C29_noisy_evolution_of_density_matrix : forall w n vals gs gr mg rho,
    set_order (set_iter w) ->
    gs <> [] -> Forall (usable n vals) gs -> Forall dense_gate gs -> Forall noise_ok gs -> is_density n rho ->
    exists rho', apply_gates w (SDM rho) (GMany gs) vals UNITARY gr mg = Ok (SDM rho') /\ is_density n rho' /\
      ktrace n (rho_entry rho') = ktrace n (rho_entry rho) /\
      (hermitian n (rho_entry rho) -> hermitian n (rho_entry rho')) /\
      (positive n (rho_entry rho) -> positive n (rho_entry rho')).
Proof. exact c29_density. Qed.
Print Assumptions C29_noisy_evolution_of_density_matrix.
Theorem C29_noisy_evolution_of_state_vector : forall w n vals gs gr mg psi,
    set_order (set_iter w) ->
    gs <> [] -> Forall (usable n vals) gs -> Forall dense_gate gs -> Forall noise_ok gs ->
    (exists g, In g gs /\ noise g <> None) -> is_state n psi ->
    exists rho', apply_gates w (SDense psi) (GMany gs) vals UNITARY gr mg = Ok (SDM rho') /\ is_density n rho' /\
      ktrace n (rho_entry rho') = RtoC (norm2 n (amp psi)) /\ hermitian n (rho_entry rho') /\ positive n (rho_entry rho').
Proof. exact c29_pure. Qed.
Print Assumptions C29_noisy_evolution_of_state_vector.
Example C29_example : exists rho',
    apply_gates ex_world (SDense (basis [0; 1; 1])) (GMany ex_noisy) ex_values UNITARY true true = Ok (SDM rho') /\ is_density 3 rho' /\
    ktrace 3 (rho_entry rho') = RtoC (norm2 3 (amp (basis [0; 1; 1]))) /\ hermitian 3 (rho_entry rho') /\ positive 3 (rho_entry rho').
Proof.
  destruct ex_noisy_ok as (U & D & N).
  apply C29_noisy_evolution_of_state_vector; [apply ex_world_order|discriminate|exact U|exact D|exact N| |ex_side].
  eexists; split; [left; reflexivity|discriminate].
Qed.

(** C30 *)
Theorem C30_zero_probability_on_density_matrix : forall w n vals gs gr mg mg' rho,
    set_order (set_iter w) ->
    gs <> [] -> Forall (usable n vals) gs -> Forall dense_gate gs -> Forall silent_gate gs -> is_density n rho ->
    exists rho', apply_gates w (SDM rho) (GMany gs) vals UNITARY gr mg = Ok (SDM rho') /\ is_density n rho' /\
      apply_gates w (SDM rho) (GMany (map without_noise gs)) vals UNITARY gr mg' = Ok (SDM rho').
Proof. exact c30_density. Qed.
Print Assumptions C30_zero_probability_on_density_matrix.
Theorem C30_zero_probability_on_state_vector : forall w n vals gs gr mg mg' psi,
    set_order (set_iter w) ->
    gs <> [] -> Forall (usable n vals) gs -> Forall dense_gate gs -> Forall silent_gate gs ->
    (exists g, In g gs /\ noise g <> None) -> is_state n psi ->
    exists phi rho, apply_gates w (SDense psi) (GMany (map without_noise gs)) vals UNITARY gr mg' = Ok (SDense phi) /\ is_state n phi /\
      apply_gates w (SDense psi) (GMany gs) vals UNITARY gr mg = Ok (SDM rho) /\ is_density n rho /\
      keq n (rho_entry rho) (fun x y => Cmul (amp phi x) (Cconj (amp phi y))).
Proof. exact c30_pure. Qed.
Print Assumptions C30_zero_probability_on_state_vector.
Example C30_example : exists rho',
    apply_gates ex_world (SDM (mixed 2)) (GMany [gX (TInt 1) (IInt 0) (Some [mkNoise AMPLITUDE_DAMPING (PFloat 0%R)]) false]) [] UNITARY true true
      = Ok (SDM rho') /\ is_density 2 rho' /\
    apply_gates ex_world (SDM (mixed 2)) (GMany [gX (TInt 1) (IInt 0) None false]) [] UNITARY true false = Ok (SDM rho').
Proof.
  apply (C30_zero_probability_on_density_matrix ex_world 2 []
           [gX (TInt 1) (IInt 0) (Some [mkNoise AMPLITUDE_DAMPING (PFloat 0%R)]) false]);
    [apply ex_world_order|discriminate| | | |apply mixed_density]; constructor; try constructor.
  - do 3 eexists; split; [eapply gm_fixed; simpl; eauto 10|apply (cq_ints [0])|reflexivity|ex_side].
  - reflexivity.
  - repeat constructor.
Qed.

(** C31: fails for every two-qubit gate, state and accepted noise instance *)
Theorem C31_noise_on_two_targets_refuted : forall w n vals g cs a b i l M gr mg s,
    set_order (set_iter w) ->
    gate_on n vals g M cs [a; b] -> dense_gate g -> noise g = Some (i :: l) -> well_typed i -> valid_parameter i ->
    (exists psi, is_state n psi /\ s = SDense psi) \/ (exists rho, is_density n rho /\ s = SDM rho) ->
    exists e, apply_gates w s (GOne g) vals UNITARY gr mg = Err e.
Proof. exact c31_refuted. Qed.
Print Assumptions C31_noise_on_two_targets_refuted.
Example C31_example : exists e,
    apply_gates ex_world (SDense (basis [0; 1; 1])) (GOne (SWAP (TTup [2; 0]) no_control (Some [ex_pauli]) false)) [] UNITARY false true = Err e.
Proof.
  eapply (C31_noise_on_two_targets_refuted ex_world 3 [] (SWAP (TTup [2; 0]) no_control (Some [ex_pauli]) false) [] 2 0 ex_pauli []);
    [apply ex_world_order|split; [apply gm_SWAP; reflexivity|apply cq_default|reflexivity|ex_side]|reflexivity|reflexivity
    |apply ex_pauli_valid|apply ex_pauli_valid|left; eexists; split; [|reflexivity]; ex_side].
Qed.

(** C32: right when the targets are the first qubits, in order; wrong for other targets *)
Theorem C32_kraus_operator_partial : forall n m K rho, is_matrix m K -> is_density n rho -> m <= n ->
    exists r, apply_kraus_operator K rho (seq 0 m) = Ok r /\ is_density n r /\
      keq n (rho_entry r) (sandwiched n (ctrl_kernel (entry K) [] (seq 0 m)) (rho_entry rho)).
Proof. exact c32_prefix. Qed.
Print Assumptions C32_kraus_operator_partial.
Theorem C32_kraus_operator_refuted : exists r, is_density 2 ket00 /\ is_matrix 1 m_X /\ apply_kraus_operator m_X ket00 [1] = Ok r /\
    rho_entry r [0; 1] [0; 1] = C0 /\ sandwiched 2 (ctrl_kernel (entry m_X) [] [1]) (rho_entry ket00) [0; 1] [0; 1] = C1.
Proof. exact c32_refuted. Qed.
Print Assumptions C32_kraus_operator_refuted.
Example C32_example : exists r, apply_kraus_operator m_X (mixed 3) (seq 0 1) = Ok r /\ is_density 3 r /\
    keq 3 (rho_entry r) (sandwiched 3 (ctrl_kernel (entry m_X) [] (seq 0 1)) (rho_entry (mixed 3))).
Proof. apply C32_kraus_operator_partial; [split; reflexivity|apply mixed_density|lia]. Qed.
(** What the code computes for any targets: after the first qubits have been moved to the places of the targets, it applies the operator to
    the qubits at the first places of the rows, and to the first qubits of the columns *)
Theorem C32_any_targets_partial : forall n m K rho t, is_matrix m K -> is_density n rho -> valid_qubits n t -> List.length t = m ->
    exists f r, permutes n f /\ map f t = seq 0 m /\ (forall p q, p < q -> q < n -> ~ In p t -> ~ In q t -> f p < f q) /\
      apply_kraus_operator K rho t = Ok r /\ is_density n r /\
      keq n (rho_entry r) (kmul n (kmul n (ctrl_kernel (entry K) [] (map f (seq 0 m))) (rho_entry rho)) (kadj (ctrl_kernel (entry K) [] (seq 0 m)))).
Proof. exact c32_exact. Qed.
Print Assumptions C32_any_targets_partial.
(** for one target q >= 1: qubit 1 of the rows and qubit 0 of the columns *)
Example C32_any_targets_example : exists r, apply_kraus_operator m_X (mixed 3) [2] = Ok r /\ is_density 3 r /\ keq 3 (rho_entry r) (kmul 3 (kmul 3 (ctrl_kernel (entry m_X) [] [1]) (rho_entry (mixed 3))) (kadj (ctrl_kernel (entry m_X) [] [0]))).
Proof.
  destruct (C32_any_targets_partial 3 1 m_X (mixed 3) [2]) as (f & r & P & E & S & Er & Dr & Kr);
    [split; reflexivity|apply mixed_density|split; [ex_nodup|repeat constructor]|reflexivity|].
  exists r. split; [exact Er|split; [exact Dr|]]. injection E as E2. assert (S01 : f 0 < f 1) by (apply S; simpl; lia).
  destruct P as [ND F]. simpl in ND, F. inversion F as [|? ? B0 F1]; subst. inversion F1 as [|? ? B1 F2]; subst. inversion ND as [|? ? N0 ND1]; subst.
  assert (E0 : f 0 = 1) by (simpl in N0; lia). cbn [map seq] in Kr. rewrite E0 in Kr. exact Kr.
Qed.
