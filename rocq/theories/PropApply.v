(** * C01-C15: applying gates to state vectors and density matrices.

    The vocabulary is in Spec.v (bitstrings, operators), GateSpec.v (which matrix a gate denotes) and
    PropSpec.v.  Every theorem is followed by an example that meets its hypotheses. *)
From Coq Require Import List String Arith Bool Reals Lia Lra Permutation Sorted.
From Verif Require Import Cplx Py Ndarray OperatorUtils ApplyOperator Sparse Matrices Noise Gates Apply Composite Api
  Spec GateSpec PropSpec NoiseSpec ApplyThm ApplyThm2 GroupFacts GroupThm ExpectThm2 GroupSpec GroupThm3 Examples.
Import ListNotations.
Local Open Scope nat_scope.

(** C01 *)
Theorem C01_apply_operator_textbook : forall n psi u c cs ts,
    is_state n psi -> is_matrix (List.length ts) u -> control_qubits c cs -> valid_qubits n (cs ++ ts) ->
    exists phi, apply_operator psi u ts c = Ok phi /\ is_state n phi /\
      forall x, In x (bitstrings n) ->
        amp phi x = if all_ones (bits_at x cs)
                    then csum (bitstrings (List.length ts))
                              (fun y => Cmul (entry u (bits_at x ts) y) (amp psi (overwrite x ts y)))
                    else amp psi x.
Proof. exact c01_ok. Qed.
Print Assumptions C01_apply_operator_textbook.
(** a doubly controlled Y, controls 3 and 0, target 1, on four qubits: |1001> is sent to i |1101> *)
Example C01_example : exists phi,
    apply_operator (basis [1; 0; 0; 1]) m_Y [1] (CTup [QInt 3; QInt 0]) = Ok phi /\
    amp phi [1; 1; 0; 1] = Ci /\ amp phi [1; 0; 0; 1] = C0.
Proof.
  destruct (C01_apply_operator_textbook 4 (basis [1; 0; 0; 1]) m_Y (CTup [QInt 3; QInt 0]) [3; 0] [1])
    as (phi & E & _ & A); [ex_side|ex_side|ex_side|ex_side|].
  exists phi; split; [exact E|]; rewrite !A by (simpl; tauto); ex_calc.
Qed.

(** C02 *)
Theorem C02_apply_operator_raises : forall n k psi u c cs ts,
    is_state n psi -> is_matrix k u -> control_qubits c cs ->
    (~ NoDup (cs ++ ts) \/ (exists q, In q (cs ++ ts) /\ n <= q) \/ k <> List.length ts) ->
    exists e, apply_operator psi u ts c = Err e.
Proof. exact c02_raises. Qed.
Print Assumptions C02_apply_operator_raises.
Example C02_example :
    (exists e, apply_operator (basis [0; 1]) m_X [2] (CTup [QNone]) = Err e) /\
    (exists e, apply_operator (basis [0; 1]) m_X [1] (CTup [QInt 1]) = Err e) /\
    (exists e, apply_operator (basis [0; 1]) m_SWAP [1] (CTup [QNone]) = Err e).
Proof.
  repeat split;
    [apply (C02_apply_operator_raises 2 1 (basis [0; 1]) m_X (CTup [QNone]) [] [2])
    |apply (C02_apply_operator_raises 2 1 (basis [0; 1]) m_X (CTup [QInt 1]) [1] [1])
    |apply (C02_apply_operator_raises 2 2 (basis [0; 1]) m_SWAP (CTup [QNone]) [] [1])]; try ex_side.
  - right; left; exists 2; simpl; split; [auto|lia].
  - left; intro H; inversion H; simpl in *; tauto.
  - right; right; discriminate.
Qed.
(** a tuple of controls with a qubit and a None *)
Theorem C02_none_among_controls_raises : forall psi u ts l k, In (QInt k) l -> In QNone l ->
    (exists e, apply_operator psi u ts (CTup l) = Err e) /\ forall so, exists e, apply_operator_dm so psi u ts (CTup l) = Err e.
Proof. exact c02_none. Qed.
Print Assumptions C02_none_among_controls_raises.
Example C02_none_example : exists e, apply_operator (basis [0; 1; 0]) m_X [2] (CTup [QInt 0; QNone]) = Err e.
Proof. apply (C02_none_among_controls_raises (basis [0; 1; 0]) m_X [2] [QInt 0; QNone] 0); simpl; tauto. Qed.

(** C03 *)
Theorem C03_apply_operator_linear : forall n a b psi phi chi u c cs ts,
    is_state n psi -> is_state n phi -> is_state n chi ->
    (forall x, In x (bitstrings n) -> amp chi x = Cadd (Cmul a (amp psi x)) (Cmul b (amp phi x))) ->
    is_matrix (List.length ts) u -> control_qubits c cs -> valid_qubits n (cs ++ ts) ->
    exists psi' phi' chi',
      apply_operator psi u ts c = Ok psi' /\ apply_operator phi u ts c = Ok phi' /\
      apply_operator chi u ts c = Ok chi' /\
      forall x, In x (bitstrings n) -> amp chi' x = Cadd (Cmul a (amp psi' x)) (Cmul b (amp phi' x)).
Proof. exact c03_linear. Qed.
Print Assumptions C03_apply_operator_linear.
Example C03_example : exists psi' phi' chi',
    apply_operator (basis [0; 1]) m_H [1] (CTup [QInt 0]) = Ok psi' /\
    apply_operator (basis [1; 1]) m_H [1] (CTup [QInt 0]) = Ok phi' /\
    apply_operator (add_scaled Ci (basis [0; 1]) (RtoC 2) (basis [1; 1])) m_H [1] (CTup [QInt 0]) = Ok chi' /\
    forall x, In x (bitstrings 2) -> amp chi' x = Cadd (Cmul Ci (amp psi' x)) (Cmul (RtoC 2) (amp phi' x)).
Proof.
  apply (C03_apply_operator_linear 2 Ci (RtoC 2) (basis [0; 1]) (basis [1; 1]) _ m_H (CTup [QInt 0]) [0] [1]);
    try ex_side.
  intros x Hx; apply amp_add_scaled with (n := 2); try ex_side; exact Hx.
Qed.

(** C04 *)
Theorem C04_unitary_steps_preserve_inner_products : forall n steps psi phi,
    Forall (unitary_step n) steps -> is_state n psi -> is_state n phi ->
    exists psi' phi',
      foldM (fun s '(u, ts, c) => apply_operator s u ts c) steps psi = Ok psi' /\
      foldM (fun s '(u, ts, c) => apply_operator s u ts c) steps phi = Ok phi' /\
      is_state n psi' /\ is_state n phi' /\
      inner_product n (amp psi') (amp phi') = inner_product n (amp psi) (amp phi) /\
      norm2 n (amp psi') = norm2 n (amp psi).
Proof. exact c04_apply_operator. Qed.
Print Assumptions C04_unitary_steps_preserve_inner_products.
Theorem C04_circuits_preserve_inner_products : forall w n vals gs gr mg psi phi,
    gs <> [] -> Forall (usable n vals) gs -> Forall dense_gate gs -> Forall noiseless gs ->
    (gr = true -> groupable gs) ->
    is_state n psi -> is_state n phi ->
    exists psi' phi',
      apply_gates w (SDense psi) (GMany gs) vals UNITARY gr mg = Ok (SDense psi') /\
      apply_gates w (SDense phi) (GMany gs) vals UNITARY gr mg = Ok (SDense phi') /\
      is_state n psi' /\ is_state n phi' /\
      inner_product n (amp psi') (amp phi') = inner_product n (amp psi) (amp phi) /\
      norm2 n (amp psi') = norm2 n (amp psi).
Proof. exact c04_circuits. Qed.
Print Assumptions C04_circuits_preserve_inner_products.
Example C04_example : exists psi' phi',
    apply_gates ex_world (SDense (basis [0; 0; 1])) (GMany ex_circuit) ex_values UNITARY false true = Ok (SDense psi') /\
    apply_gates ex_world (SDense (basis [0; 1; 1])) (GMany ex_circuit) ex_values UNITARY false true = Ok (SDense phi') /\
    is_state 3 psi' /\ is_state 3 phi' /\
    inner_product 3 (amp psi') (amp phi') = inner_product 3 (amp (basis [0; 0; 1])) (amp (basis [0; 1; 1])) /\
    norm2 3 (amp psi') = norm2 3 (amp (basis [0; 0; 1])).
Proof.
  apply C04_circuits_preserve_inner_products;
    [discriminate|apply ex_circuit_usable|apply ex_circuit_dense|apply ex_circuit_noiseless|discriminate|ex_side|ex_side].
Qed.

(** C05 *)
Theorem C05_dagger_undoes_gate : forall w n vals g gr mg psi,
    usable n vals g -> dense_gate g -> noiseless g -> is_state n psi ->
    exists phi,
      apply_gates w (SDense psi) (GOne g) vals UNITARY gr mg = Ok (SDense phi) /\
      apply_gates w (SDense phi) (GOne g) vals DAGGER gr mg = Ok (SDense psi).
Proof. exact c05_dagger. Qed.
Print Assumptions C05_dagger_undoes_gate.
Theorem C05_dagger_undoes_circuit : forall w n vals gs mg psi,
    gs <> [] -> Forall (usable n vals) gs -> Forall dense_gate gs -> Forall noiseless gs -> is_state n psi ->
    exists phi,
      apply_gates w (SDense psi) (GMany gs) vals UNITARY false mg = Ok (SDense phi) /\
      apply_gates w (SDense phi) (GMany (rev gs)) vals DAGGER false mg = Ok (SDense psi).
Proof. exact c05_dagger_circuit. Qed.
Print Assumptions C05_dagger_undoes_circuit.
Theorem C05_dagger_undoes_circuit_on_density_matrices : forall w n vals gs mg rho,
    set_order (set_iter w) ->
    gs <> [] -> Forall (usable n vals) gs -> Forall dense_gate gs -> Forall noiseless gs -> is_density n rho ->
    exists rho',
      apply_gates w (SDM rho) (GMany gs) vals UNITARY false mg = Ok (SDM rho') /\
      apply_gates w (SDM rho') (GMany (rev gs)) vals DAGGER false mg = Ok (SDM rho).
Proof. exact c05_dagger_density. Qed.
Print Assumptions C05_dagger_undoes_circuit_on_density_matrices.
Example C05_example : exists phi,
    apply_gates ex_world (SDense (basis [0; 0; 1])) (GMany ex_circuit) ex_values UNITARY false true = Ok (SDense phi) /\
    apply_gates ex_world (SDense phi) (GMany (rev ex_circuit)) ex_values DAGGER false true = Ok (SDense (basis [0; 0; 1])).
Proof.
  apply C05_dagger_undoes_circuit with (n := 3);
    [discriminate|apply ex_circuit_usable|apply ex_circuit_dense|apply ex_circuit_noiseless|ex_side].
Qed.

(** C06: the operator [E] of the theorem, characterised by the second statement, is the textbook action *)
Theorem C06_density_matrix_evolution : forall so n rho u c cs ts,
    set_order so -> is_density n rho -> is_matrix (List.length ts) u -> control_qubits c cs -> valid_qubits n (cs ++ ts) ->
    exists rho', apply_operator_dm so rho u ts c = Ok rho' /\ is_density n rho' /\
      let E := ctrl_kernel (entry u) cs ts in
      keq n (rho_entry rho') (kmul n (kmul n E (rho_entry rho)) (kadj E)).
Proof. exact c06_dm. Qed.
Print Assumptions C06_density_matrix_evolution.
Theorem C06_operator_is_textbook_action : forall n M cs ts psi x, In x (bitstrings n) ->
    apply_kernel n (ctrl_kernel M cs ts) psi x =
    if all_ones (bits_at x cs)
    then csum (bitstrings (List.length ts)) (fun y => Cmul (M (bits_at x ts) y) (psi (overwrite x ts y)))
    else psi x.
Proof. exact c06_kernel. Qed.
Print Assumptions C06_operator_is_textbook_action.
Example C06_example : exists rho',
    apply_operator_dm (set_iter ex_world) (mixed 3) m_SWAP [2; 0] (CTup [QInt 1]) = Ok rho' /\ is_density 3 rho' /\
    let E := ctrl_kernel (entry m_SWAP) [1] [2; 0] in
    keq 3 (rho_entry rho') (kmul 3 (kmul 3 E (rho_entry (mixed 3))) (kadj E)).
Proof.
  apply C06_density_matrix_evolution; [apply ex_world_order|apply mixed_density|ex_side|ex_side|ex_side].
Qed.

(** C07 *)
Theorem C07_state_vector_and_density_matrix_agree : forall w n vals gs gr mg psi,
    set_order (set_iter w) ->
    gs <> [] -> Forall (usable n vals) gs -> Forall dense_gate gs -> Forall noiseless gs ->
    (gr = true -> groupable gs) -> is_state n psi ->
    exists phi rho sigma,
      apply_gates w (SDense psi) (GMany gs) vals UNITARY gr mg = Ok (SDense phi) /\
      density_mat psi = Ok rho /\ density_mat phi = Ok sigma /\
      apply_gates w (SDM rho) (GMany gs) vals UNITARY gr mg = Ok (SDM sigma).
Proof. exact c07_pure. Qed.
Print Assumptions C07_state_vector_and_density_matrix_agree.
Example C07_example : exists phi rho sigma,
    apply_gates ex_world (SDense (basis [0; 0; 1])) (GMany ex_circuit) ex_values UNITARY false true = Ok (SDense phi) /\
    density_mat (basis [0; 0; 1]) = Ok rho /\ density_mat phi = Ok sigma /\
    apply_gates ex_world (SDM rho) (GMany ex_circuit) ex_values UNITARY false true = Ok (SDM sigma).
Proof.
  apply C07_state_vector_and_density_matrix_agree with (n := 3);
    [apply ex_world_order|discriminate|apply ex_circuit_usable|apply ex_circuit_dense|apply ex_circuit_noiseless|discriminate|ex_side].
Qed.

(** C08 *)
Theorem C08_unitary_preserves_density_matrix : forall so n rho u c cs ts,
    set_order so -> is_density n rho -> is_matrix (List.length ts) u -> unitary (List.length ts) (entry u) ->
    control_qubits c cs -> valid_qubits n (cs ++ ts) ->
    exists rho', apply_operator_dm so rho u ts c = Ok rho' /\ is_density n rho' /\
      ktrace n (rho_entry rho') = ktrace n (rho_entry rho) /\
      (hermitian n (rho_entry rho) -> hermitian n (rho_entry rho')) /\
      (positive n (rho_entry rho) -> positive n (rho_entry rho')).
Proof. exact c08_apply_operator. Qed.
Print Assumptions C08_unitary_preserves_density_matrix.
Theorem C08_circuits_preserve_density_matrix : forall w n vals gs gr mg rho,
    set_order (set_iter w) ->
    gs <> [] -> Forall (usable n vals) gs -> Forall dense_gate gs -> Forall noiseless gs ->
    (gr = true -> groupable gs) -> is_density n rho ->
    exists rho', apply_gates w (SDM rho) (GMany gs) vals UNITARY gr mg = Ok (SDM rho') /\ is_density n rho' /\
      ktrace n (rho_entry rho') = ktrace n (rho_entry rho) /\
      (hermitian n (rho_entry rho) -> hermitian n (rho_entry rho')) /\
      (positive n (rho_entry rho) -> positive n (rho_entry rho')).
Proof. exact c08_circuits. Qed.
Print Assumptions C08_circuits_preserve_density_matrix.
Example C08_example : exists rho',
    apply_gates ex_world (SDM (mixed 3)) (GMany ex_circuit) ex_values UNITARY false true = Ok (SDM rho') /\
    is_density 3 rho' /\ ktrace 3 (rho_entry rho') = ktrace 3 (rho_entry (mixed 3)) /\
    hermitian 3 (rho_entry rho') /\ positive 3 (rho_entry rho').
Proof.
  destruct (C08_circuits_preserve_density_matrix ex_world 3 ex_values ex_circuit false true (mixed 3))
    as (r & E & D & T & H & P);
    [apply ex_world_order|discriminate|apply ex_circuit_usable|apply ex_circuit_dense|apply ex_circuit_noiseless
    |discriminate|apply mixed_density|].
  exists r; do 3 (split; [assumption|]). split; [apply H, mixed_hermitian|apply P, mixed_positive].
Qed.

(** C09 *)
Theorem C09_disjoint_gates_commute : forall n psi u c cs ts v c' cs' ts',
    is_state n psi -> is_matrix (List.length ts) u -> is_matrix (List.length ts') v ->
    control_qubits c cs -> control_qubits c' cs' ->
    valid_qubits n (cs ++ ts) -> valid_qubits n (cs' ++ ts') ->
    (forall q, In q (cs ++ ts) -> ~ In q (cs' ++ ts')) ->
    exists psi_u psi_v phi,
      apply_operator psi u ts c = Ok psi_u /\ apply_operator psi_u v ts' c' = Ok phi /\
      apply_operator psi v ts' c' = Ok psi_v /\ apply_operator psi_v u ts c = Ok phi.
Proof. exact c09_commute. Qed.
Print Assumptions C09_disjoint_gates_commute.
Example C09_example : exists psi_u psi_v phi,
    apply_operator (basis [0; 1; 1]) m_H [2] (CTup [QInt 0]) = Ok psi_u /\ apply_operator psi_u m_Y [1] (CTup [QNone]) = Ok phi /\
    apply_operator (basis [0; 1; 1]) m_Y [1] (CTup [QNone]) = Ok psi_v /\ apply_operator psi_v m_H [2] (CTup [QInt 0]) = Ok phi.
Proof.
  apply (C09_disjoint_gates_commute 3 (basis [0; 1; 1]) m_H (CTup [QInt 0]) [0] [2] m_Y (CTup [QNone]) [] [1]); try ex_side.
  intros q [<-|[<-|[]]] [H|[]]; discriminate.
Qed.

(** C10: the gates may carry noise (then nothing is merged); state vectors and density matrices *)
Theorem C10_merging_does_not_change_the_result : forall w n vals ot gr gs s,
    set_order (set_iter w) ->
    gs <> [] -> Forall (usable n vals) gs -> Forall dense_gate gs -> Forall (has_operation ot) gs -> state_of n s ->
    apply_gates w s (GMany gs) vals ot gr true = apply_gates w s (GMany gs) vals ot gr false.
Proof. exact c10_merge_any. Qed.
Print Assumptions C10_merging_does_not_change_the_result.
(** one gate at a time: for density matrices with any noise, for state vectors without noise *)
Theorem C10_gates_are_applied_one_after_the_other : forall w n vals ot mg gs s,
    set_order (set_iter w) ->
    gs <> [] -> Forall (usable n vals) gs -> Forall dense_gate gs -> Forall (has_operation ot) gs -> state_of n s ->
    (match s with SDense _ => Forall noiseless gs | _ => True end) ->
    apply_gates w s (GMany gs) vals ot false mg =
    foldM (fun s g => apply_gates w s (GOne g) vals ot false false) gs s.
Proof. exact c10_sequential. Qed.
Print Assumptions C10_gates_are_applied_one_after_the_other.
Example C10_example :
    apply_gates ex_world (SDense (basis [0; 0; 1])) (GMany ex_circuit) ex_values DAGGER true true =
    apply_gates ex_world (SDense (basis [0; 0; 1])) (GMany ex_circuit) ex_values DAGGER true false.
Proof.
  apply C10_merging_does_not_change_the_result with (n := 3);
    [apply ex_world_order|discriminate|apply ex_circuit_usable|apply ex_circuit_dense
    |repeat constructor; discriminate|ex_side].
Qed.

(** C11 *)
Theorem C11_grouping_does_not_change_the_result : forall w n vals ot mg gs s,
    set_order (set_iter w) ->
    Forall (usable n vals) gs -> Forall dense_gate gs -> Forall noise_ok gs -> Forall (has_operation ot) gs ->
    groupable gs -> state_of n s ->
    apply_gates w s (GMany gs) vals ot true mg = apply_gates w s (GMany gs) vals ot false mg.
Proof. exact c11_group. Qed.
Print Assumptions C11_grouping_does_not_change_the_result.
Theorem C11_single_qubit_gates_are_groupable : forall gs, single_qubit_uncontrolled gs -> groupable gs.
Proof. exact single_groupable. Qed.
Print Assumptions C11_single_qubit_gates_are_groupable.
Theorem C11_grouping_reorders : forall gs, Permutation (group_by_index gs) gs.
Proof. exact group_by_index_perm. Qed.
Print Assumptions C11_grouping_reorders.
Example C11_example :
    group_by_index ex_circuit <> ex_circuit /\
    apply_gates ex_world (SDense (basis [0; 0; 1])) (GMany ex_circuit) ex_values UNITARY true true =
    apply_gates ex_world (SDense (basis [0; 0; 1])) (GMany ex_circuit) ex_values UNITARY false true.
Proof.
  split; [discriminate|].
  apply C11_grouping_does_not_change_the_result with (n := 3);
    [apply ex_world_order|apply ex_circuit_usable|apply ex_circuit_dense|apply ex_circuit_ok
    |repeat constructor; discriminate|apply C11_single_qubit_gates_are_groupable|ex_side].
  intros g [<-|[<-|[<-|[<-|[]]]]]; simpl; intros; try reflexivity; discriminate.
Qed.
(** a noisy list: X on qubit 1 with bit flips, H on qubit 0, Z on qubit 1 with damping; grouping exchanges the last two *)
Definition ex_noisy_group : list gate :=
  [gX (TInt 1) no_control (Some [mkNoise BITFLIP (PFloat (1 / 4))]) false; gH (TInt 0) no_control None false;
   gZ (TInt 1) no_control (Some [mkNoise AMPLITUDE_DAMPING (PFloat (1 / 2))]) false]%R.
Example C11_noisy_example : group_by_index ex_noisy_group <> ex_noisy_group /\ forall w, set_order (set_iter w) ->
    apply_gates w (SDense (basis [0; 1])) (GMany ex_noisy_group) [] UNITARY true true =
    apply_gates w (SDense (basis [0; 1])) (GMany ex_noisy_group) [] UNITARY false true.
Proof.
  split; [discriminate|]. intros w SO. apply C11_grouping_does_not_change_the_result with (n := 2); [exact SO| | | | | |ex_side].
  - unfold ex_noisy_group. do 3 (apply Forall_cons; [do 3 eexists; (split; [eapply gm_fixed; simpl; eauto 10|apply cq_default|reflexivity|apply valid_one; lia])|]). apply Forall_nil.
  - repeat constructor.
  - constructor; [|constructor; [exact Logic.I|constructor; [|constructor]]]; (split; [reflexivity|]); constructor; [|constructor| |constructor]; (split; [exact Logic.I|]); unfold valid_parameter, is_prob; simpl; lra.
  - repeat constructor; discriminate.
  - apply C11_single_qubit_gates_are_groupable. intros g [<-|[<-|[<-|[]]]]; reflexivity.
Qed.

(** C12 is false: with a SWAP in the list, grouping changes the result ([bad_group] is X on qubit 1, then SWAP) *)
Theorem C12_grouping_multi_qubit_gates_refuted : forall w vals mg, exists r1 r2,
    is_state 2 ket00 /\ Forall (usable 2 vals) bad_group /\
    apply_gates w (SDense ket00) (GMany bad_group) vals UNITARY true mg = Ok (SDense r1) /\
    apply_gates w (SDense ket00) (GMany bad_group) vals UNITARY false mg = Ok (SDense r2) /\
    amp r1 [1; 0] = C0 /\ amp r2 [1; 0] = C1.
Proof. exact c12_refuted. Qed.
Print Assumptions C12_grouping_multi_qubit_gates_refuted.
(** what is true of every list of gates, noisy or not, on every kind of state: grouping applies the controlled gates where they are, and every
    run of uncontrolled gates between them in the order of their target tuples, gates with equal targets keeping their order.  For lists in
    which uncontrolled gates have equal or disjoint targets this is C11; the full statement of C12 fails for the others. *)
Theorem C12_grouping_applies_the_target_order_partial : forall gs, (exists gs', regrouped gs gs') /\
    forall gs', regrouped gs gs' -> forall w s vals ot mg,
      apply_gates w s (GMany gs) vals ot true mg = apply_gates w s (GMany gs') vals ot false mg.
Proof. exact c12_exact. Qed.
Print Assumptions C12_grouping_applies_the_target_order_partial.
(** Z on qubit 2, SWAP(0, 1), X on qubit 0, a controlled X, then H on qubit 1 and Y on qubit 0 *)
Example C12_example : forall a b c d e f, target a = [2] -> target b = [0; 1] -> target c = [0] -> target e = [1] -> target f = [0] ->
    Forall (fun g => is_controlled (control g) = false) [a; b; c; e; f] -> is_controlled (control d) = true ->
    forall w s vals ot mg, apply_gates w s (GMany [a; b; c; d; e; f]) vals ot true mg = apply_gates w s (GMany [c; b; a; d; f; e]) vals ot false mg.
Proof.
  intros a b c d e f Ta Tb Tc Te Tf F D. apply (proj2 (C12_grouping_applies_the_target_order_partial [a; b; c; d; e; f])).
  inversion F as [|? ? Fa F1]; subst. inversion F1 as [|? ? Fb F2]; subst. inversion F2 as [|? ? Fc F3]; subst.
  assert (OK : forall l l', Permutation l l' -> l' = sort_batch l -> ordered_by_target l l') by (intros l l' _ ->; apply sort_ordered).
  apply (rg_cut [a; b; c] [c; b; a] d [e; f] [f; e]).
  - repeat constructor; assumption.
  - apply OK; [apply Permutation_rev|]. unfold sort_batch. cbn [sort_by insert_by]. repeat (first [rewrite Ta|rewrite Tb|rewrite Tc]; cbn [lex_leb Nat.ltb Nat.leb insert_by]). reflexivity.
  - exact D.
  - apply rg_run; [exact F3|]. apply OK; [apply perm_swap|]. unfold sort_batch. cbn [sort_by insert_by]. rewrite Te, Tf. reflexivity.
Qed.

(** C13: running a circuit without gates is the identity; but apply_gates on an empty list and the expectation
    of a circuit without gates raise *)
Theorem C13_run_of_empty_circuit_partial : forall w o, empty_circuit o -> forall s vals, run w o s vals = Ok (Some s).
Proof. exact c13_run. Qed.
Print Assumptions C13_run_of_empty_circuit_partial.
Theorem C13_apply_gates_of_empty_list_refuted : forall w s vals ot gr mg, apply_gates w s (GMany []) vals ot gr mg = Err TypeError.
Proof. exact c13_apply_gates_raises. Qed.
Print Assumptions C13_apply_gates_of_empty_list_refuted.
Theorem C13_expectation_of_empty_circuit_refuted : forall w s l vals nq fp,
    ad_expectation w s (OSeq []) [l] vals <> Ok [] /\
    (forall r, ad_expectation w s (OSeq []) [l] vals <> Ok r) /\
    (forall r, ad_expectation w s (OQC nq [] fp) [l] vals <> Ok r).
Proof. exact c13_expectation_raises. Qed.
Print Assumptions C13_expectation_of_empty_circuit_refuted.
Example C13_example : run ex_world (OSeq [OSeq []; OQC 2 [OSeq []] []]) (SDense (basis [0; 1])) ex_values = Ok (Some (SDense (basis [0; 1]))).
Proof. apply C13_run_of_empty_circuit_partial; repeat constructor. Qed.

(** C14 *)
Theorem C14_expand_operator_pads_with_identities : forall u qs fs sq sf ps,
    is_matrix (List.length qs) u ->
    StronglySorted lt sq -> Permutation sq qs -> StronglySorted lt sf -> Permutation sf fs ->
    positions sq sf ps ->
    exists r, expand_operator u qs fs = Ok r /\ is_matrix (List.length fs) r /\
      forall psi x, In x (bitstrings (List.length fs)) ->
        apply_kernel (List.length fs) (entry r) psi x =
        csum (bitstrings (List.length qs)) (fun y => Cmul (entry u (bits_at x ps) y) (psi (overwrite x ps y))).
Proof. exact c14_expand. Qed.
Print Assumptions C14_expand_operator_pads_with_identities.
Theorem C14_expand_operator_raises : forall u qs fs, (exists q, In q qs /\ ~ In q fs) -> expand_operator u qs fs = Err ValueError.
Proof. exact c14_raises. Qed.
Print Assumptions C14_expand_operator_raises.
Example C14_example : exists r, expand_operator m_SWAP [7; 2] [5; 7; 0; 2] = Ok r /\ is_matrix 4 r /\
      forall psi x, In x (bitstrings 4) ->
        apply_kernel 4 (entry r) psi x =
        csum (bitstrings 2) (fun y => Cmul (entry m_SWAP (bits_at x [1; 3]) y) (psi (overwrite x [1; 3] y))).
Proof.
  apply (C14_expand_operator_pads_with_identities m_SWAP [7; 2] [5; 7; 0; 2] [2; 7] [0; 2; 5; 7] [1; 3]).
  - ex_side.
  - repeat constructor.
  - apply perm_swap.
  - repeat constructor.
  - apply NoDup_Permutation; [repeat constructor; simpl; intuition discriminate|repeat constructor; simpl; intuition discriminate|].
    intro x; simpl; tauto.
  - split; [reflexivity|]. intros [|[|i]] Hi; simpl in *; [split; [lia|reflexivity]|split; [lia|reflexivity]|lia].
Qed.

(** C15 *)
Theorem C15_permute_basis_inverse : forall a s, wf a -> ndim a = 2 * List.length s ->
    (let! r := permute_basis a s false in permute_basis r s true) = Ok a /\
    (let! r := permute_basis a s true in permute_basis r s false) = Ok a.
Proof. exact c15_permute. Qed.
Print Assumptions C15_permute_basis_inverse.
Example C15_example : (let! r := permute_basis (mixed 3) [4; 0; 2] false in permute_basis r [4; 0; 2] true) = Ok (mixed 3).
Proof. apply C15_permute_basis_inverse; [apply mixed_density|reflexivity]. Qed.
