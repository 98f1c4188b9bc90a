(** * C59-C74, C77, C78: structure of gates and circuits, helpers for states.

    The vocabulary is in Spec.v, GateSpec.v, PropSpec.v, ExpectSpec.v and StructSpec.v.  Every theorem is followed by
    an example that meets its hypotheses. *)
From Coq Require Import String List Arith Bool Reals Lia Lra Sorted.
From Verif Require Import Cplx Py Ndarray OperatorUtils ApplyOperator Sparse Matrices Noise Gates Apply Composite Conversion Shots Api
  Spec GateSpec PropSpec NoiseSpec ExpectSpec StructSpec ApplyThm GateThm ExpectThm2 StructThm StructThm2 StructThm4 StructThm3 GpsrThm3 Examples.
Import ListNotations.
Local Open Scope nat_scope.

(** a controlled rotation with noise, a PHASE with a numeric angle, and a nesting of them *)
Definition st_rx : gate := RX (PName "a") (TInt 1) (ITup [QInt 0; QInt 2]) (Some [mkNoise BITFLIP (PFloat (1 / 2))]) false.
Definition st_phase : gate := PHASE (PNum 3) (TInt 0) no_control None true.
Definition st_oper : oper := OSeq [OGate st_rx; OAdd [OGate st_phase; OScale [OGate (SWAP (TTup [0; 1]) INone None false)] (PName "c")]; OObs [OSeq []]].
Definition st_plain : oper := OSeq [OGate st_rx; OAdd [OGate (gX (TInt 0) no_control None false); OGate (HamiltonianEvolution (TTup [0; 1]) INone)]; OObs [OSeq []]].
Lemma st_rx_built : built st_rx.
Proof. apply (bt_param "X"). Qed.
Lemma st_phase_built : built st_phase.
Proof. apply (bt_phase "I"). Qed.
Lemma st_plain_built : Forall built_any (all_gates st_plain).
Proof.
  apply Forall_cons; [left; exact st_rx_built|]. apply Forall_cons; [left; apply (bt_prim "X")|].
  apply Forall_cons; [right; exists "I"%string, (TTup [0; 1]), INone, None, false; reflexivity|apply Forall_nil].
Qed.
Lemma st_plain_nesting : plain_nesting st_plain.
Proof.
  apply pn_seq. apply Forall_cons; [apply pn_gate|]. apply Forall_cons; [apply pn_add|].
  - apply Forall_cons; [apply pn_gate|]. apply Forall_cons; [apply pn_gate|apply Forall_nil].
  - apply Forall_cons; [apply pn_obs|apply Forall_nil]. apply Forall_cons; [apply pn_seq, Forall_nil|apply Forall_nil].
Qed.
Lemma st_plain_dense : Forall dense_gate (all_gates st_plain).
Proof. repeat (apply Forall_cons; [reflexivity|]). apply Forall_nil. Qed.

(** C59 *)
Theorem C59_pytree_round_trip_of_gates : forall g, built g -> gate_roundtrip g = Ok g.
Proof. exact c59_gate_thm. Qed.
Print Assumptions C59_pytree_round_trip_of_gates.
Example C59_gate_example : gate_roundtrip st_rx = Ok st_rx /\ gate_roundtrip st_phase = Ok st_phase.
Proof. split; apply C59_pytree_round_trip_of_gates; [exact st_rx_built|exact st_phase_built]. Qed.
Theorem C59_pytree_round_trip_of_composites : forall o, no_circuit o -> Forall built (all_gates o) -> oper_roundtrip o = Ok o.
Proof. exact c59_oper_thm. Qed.
Print Assumptions C59_pytree_round_trip_of_composites.
Example C59_oper_example : oper_roundtrip st_oper = Ok st_oper.
Proof.
  apply C59_pytree_round_trip_of_composites.
  - apply nc_seq. apply Forall_cons; [apply nc_gate|]. apply Forall_cons; [apply nc_add|].
    + apply Forall_cons; [apply nc_gate|]. apply Forall_cons; [apply nc_scale|apply Forall_nil]. apply Forall_cons; [apply nc_gate|apply Forall_nil].
    + apply Forall_cons; [apply nc_obs|apply Forall_nil]. apply Forall_cons; [apply nc_seq, Forall_nil|apply Forall_nil].
  - apply Forall_cons; [exact st_rx_built|]. apply Forall_cons; [exact st_phase_built|]. apply Forall_cons; [apply (bt_prim "SWAP")|apply Forall_nil].
Qed.
Theorem C59_pytree_round_trip_of_noise : forall n, noise_unflatten (noise_flatten n) = n.
Proof. exact c59_noise_thm. Qed.
Print Assumptions C59_pytree_round_trip_of_noise.
Theorem C59_pytree_round_trip_of_density_matrices : forall a, exists x, dm_flatten (SDM a) = Some x /\ dm_unflatten x = SDM a.
Proof. exact c59_density_thm. Qed.
Print Assumptions C59_pytree_round_trip_of_density_matrices.

(** C60: the two components are returned in the wrong order, so JAX rebuilds something else, whatever the circuit. *)
Theorem C60_circuit_rebuilt_in_the_order_returned_partial : forall n l fp,
    let '(first, second) := qc_flatten n l fp in qc_unflatten first second = Ok (mkPyCircuit (PyInt n) (PyOps l) (PyStrs fp)).
Proof. exact c60_partial_thm. Qed.
Print Assumptions C60_circuit_rebuilt_in_the_order_returned_partial.
Theorem C60_pytree_round_trip_of_circuits_refuted : forall n l fp, qc_roundtrip n l fp <> Ok (mkPyCircuit (PyInt n) (PyOps l) (PyStrs fp)).
Proof. exact c60_refuted_thm. Qed.
Print Assumptions C60_pytree_round_trip_of_circuits_refuted.
Example C60_refuted_example : qc_roundtrip 2 [OGate st_phase] ["x"%string] = Ok (mkPyCircuit (PyOps [OGate st_phase]) (PyStrs ["x"%string]) (PyInt 2)).
Proof. reflexivity. Qed.

(** C61: the shift is lost. *)
Theorem C61_pytree_round_trip_of_unshifted_evolution_partial : forall name t c ns sp, gate_roundtrip (evolution name t c ns sp 0) = Ok (evolution name t c ns sp 0).
Proof. exact c61_partial_thm. Qed.
Print Assumptions C61_pytree_round_trip_of_unshifted_evolution_partial.
Theorem C61_pytree_round_trip_of_evolution_refuted : forall name t c ns sp s, s <> 0%R ->
    exists g, gate_roundtrip (evolution name t c ns sp s) = Ok g /\ g <> evolution name t c ns sp s /\ shift g = 0%R.
Proof. exact c61_refuted_thm. Qed.
Print Assumptions C61_pytree_round_trip_of_evolution_refuted.
Example C61_refuted_example : exists g, gate_roundtrip (evolution "I" (TInt 0) no_control None false 1) = Ok g /\ shift g = 0%R.
Proof. destruct (C61_pytree_round_trip_of_evolution_refuted "I" (TInt 0) no_control None false 1) as (g & E & _ & S); [lra|]. exists g; auto. Qed.

(** C62 *)
Theorem C62_conversion_changes_only_the_flag : forall b o, plain_nesting o -> Forall built_any (all_gates o) -> convert b o = Ok (with_sparse_oper b o).
Proof. exact c62_flag_thm. Qed.
Print Assumptions C62_conversion_changes_only_the_flag.
Theorem C62_dense_sparse_dense : forall o, plain_nesting o -> Forall built_any (all_gates o) -> Forall dense_gate (all_gates o) ->
    exists o', to_sparse o = Ok o' /\ to_dense o' = Ok o.
Proof. exact c62_roundtrip_thm. Qed.
Print Assumptions C62_dense_sparse_dense.
Example C62_example : convert true st_plain = Ok (with_sparse_oper true st_plain) /\ exists o, to_sparse st_plain = Ok o /\ to_dense o = Ok st_plain.
Proof.
  split; [apply C62_conversion_changes_only_the_flag|apply C62_dense_sparse_dense]; try exact st_plain_nesting; try exact st_plain_built. exact st_plain_dense.
Qed.

(** C63: only the first operation of a Scale survives, and the feature parameters are dropped. *)
Theorem C63_conversion_of_simple_nestings_partial : forall b o, simple_nesting o -> Forall built_any (all_gates o) -> convert b o = Ok (with_sparse_oper b o).
Proof. exact c63_partial_thm. Qed.
Print Assumptions C63_conversion_of_simple_nestings_partial.
Example C63_partial_example : to_sparse (OQC 2 [OScale [OScale [OGate st_rx] (PNum 2)] (PName "c")] []) =
    Ok (OQC 2 [OScale [OScale [OGate (with_sparse true st_rx)] (PNum 2)] (PName "c")] []).
Proof.
  apply (C63_conversion_of_simple_nestings_partial true).
  - apply sn_circuit. apply Forall_cons; [|apply Forall_nil]. apply sn_scale; [exact Logic.I|]. apply sn_scale; [exact Logic.I|]. apply sn_gate.
  - apply Forall_cons; [left; exact st_rx_built|apply Forall_nil].
Qed.
Theorem C63_conversion_refuted :
    (forall b g1 g2 l p, built_any g1 -> exists o, convert b (Scale (AOp (OSeq (OGate g1 :: OGate g2 :: l))) p) = Ok o /\ all_gates o = [with_sparse b g1]) /\
    (forall b n l fp, Forall (fun g => exists h, g = OGate h /\ built_any h) l -> convert b (OQC n l fp) = Ok (OQC n (map (with_sparse_oper b) l) [])).
Proof. exact c63_refuted_thm. Qed.
Print Assumptions C63_conversion_refuted.
Example C63_refuted_example : to_sparse (OQC 2 [OGate st_rx] ["x"%string]) = Ok (OQC 2 [OGate (with_sparse true st_rx)] []).
Proof. apply (proj2 C63_conversion_refuted true). apply Forall_cons; [|apply Forall_nil]. exists st_rx. split; [reflexivity|left; exact st_rx_built]. Qed.

(** C64 *)
Theorem C64_variational_parameters_of_a_circuit : forall str_of n l fp, all_named (OQC n l fp) ->
    (forall s, In s (vparams str_of (OQC n l fp)) <-> (exists g, In g (all_gates (OQC n l fp)) /\ has_name s g) /\ ~ In s fp) /\
    NoDup (vparams str_of (OQC n l fp)) /\ n_vparams str_of (OQC n l fp) = List.length (vparams str_of (OQC n l fp)).
Proof. exact c64_thm. Qed.
Print Assumptions C64_variational_parameters_of_a_circuit.
Example C64_example : forall str_of s, In s (vparams str_of (OQC 3 [OGate st_rx; OSeq [OGate (RY (PName "b") (TInt 0) no_control None false); OGate st_rx]] ["b"%string])) <-> s = "a"%string.
Proof.
  intros str_of s. destruct (C64_variational_parameters_of_a_circuit str_of 3 [OGate st_rx; OSeq [OGate (RY (PName "b") (TInt 0) no_control None false); OGate st_rx]] ["b"%string]) as (E & _).
  { intros g I _. simpl in I. destruct I as [<-|[<-|[<-|[]]]]; eexists; reflexivity. }
  rewrite E. split.
  - intros [(g & I & _ & Q) N]. simpl in I. destruct I as [<-|[<-|[<-|[]]]]; injection Q as <-; [reflexivity| |reflexivity]. exfalso; apply N; left; reflexivity.
  - intros ->. split; [exists st_rx; split; [left; reflexivity|split; [left; reflexivity|reflexivity]]|]. intros [Q|[]]; discriminate.
Qed.
(** the same for a circuit as the user makes it, from a list of operations or from one operation, with its feature parameters *)
Theorem C64_parameters_of_a_constructed_circuit : forall str_of n fp,
    (forall l, (forall o, In o l -> all_named o) -> forall s, In s (vparams str_of (QuantumCircuit n (AList l) fp)) <-> (exists o g, In o l /\ In g (all_gates o) /\ has_name s g) /\ ~ In s fp) /\
    (forall o, all_named o -> forall s, In s (vparams str_of (QuantumCircuit n (AOp o) fp)) <-> (exists g, In g (all_gates o) /\ has_name s g) /\ ~ In s fp).
Proof. exact c64_built. Qed.
Print Assumptions C64_parameters_of_a_constructed_circuit.
Example C64_constructed_example : forall str_of, In "a"%string (vparams str_of (QuantumCircuit 3 (AList [OGate st_rx; OGate (RY (PName "b") (TInt 0) no_control None false)]) ["b"%string])) /\
    ~ In "b"%string (vparams str_of (QuantumCircuit 3 (AList [OGate st_rx; OGate (RY (PName "b") (TInt 0) no_control None false)]) ["b"%string])).
Proof.
  intro str_of. destruct (C64_parameters_of_a_constructed_circuit str_of 3 ["b"%string]) as [E _].
  assert (A : forall o, In o [OGate st_rx; OGate (RY (PName "b") (TInt 0) no_control None false)] -> all_named o).
  { intros o [<-|[<-|[]]] g I _; simpl in I; destruct I as [<-|[]]; eexists; reflexivity. }
  rewrite !(E _ A). split.
  - split; [exists (OGate st_rx), st_rx; split; [left; reflexivity|split; [left; reflexivity|split; [left; reflexivity|reflexivity]]]|]. intros [Q|[]]; discriminate.
  - intros [_ N]. apply N. left. reflexivity.
Qed.
Theorem C64_parameters_of_a_sequence : forall str_of o, plain_nesting o -> all_named o ->
    (forall s, In s (param_names str_of o) <-> exists g, In g (all_gates o) /\ has_name s g) /\
    NoDup (param_names str_of o) /\ n_vparams str_of o = List.length (param_names str_of o).
Proof. exact c64_seq_thm. Qed.
Print Assumptions C64_parameters_of_a_sequence.
Example C64_sequence_example : forall str_of, In "a"%string (param_names str_of st_plain) /\ n_vparams str_of st_plain = 1.
Proof. intro str_of. split; [left; reflexivity|reflexivity]. Qed.

(** C65: every numeric angle adds its decimal representation to the names. *)
Theorem C65_names_and_numbers_partial : forall str_of n l fp s,
    In s (vparams str_of (OQC n l fp)) <->
    (exists g, In g (all_gates (OQC n l fp)) /\ parametric g /\ (gparam g = PName s \/ exists x, gparam g = PNum x /\ s = str_of x)) /\ ~ In s fp.
Proof. exact c65_partial_thm. Qed.
Print Assumptions C65_names_and_numbers_partial.
Theorem C65_constant_angle_refuted : forall str_of n g x, parametric g -> gparam g = PNum x ->
    In (str_of x) (vparams str_of (OQC n [OGate g] [])) /\ n_vparams str_of (OQC n [OGate g] []) = 1.
Proof. exact c65_refuted_thm. Qed.
Print Assumptions C65_constant_angle_refuted.
Example C65_refuted_example : parametric st_phase /\ gparam st_phase = PNum 3.
Proof. split; [right; reflexivity|reflexivity]. Qed.

(** C66: [uuid i] is the [i]-th result of uuid4 *)
Theorem C66_ansatz_structure : forall n L fns prefix uuid,
    length (hea n L fns prefix uuid) = L * n * (length fns + n) /\
    forall l i, l < L -> i < n ->
      (forall j d, j < length fns -> nth_error (hea n L fns prefix uuid) ((l * n + i) * (length fns + n) + j) =
          Some (nth j fns d (PName (prefix ++ uuid ((l * n + i) * length fns + j))) (TInt i) no_control None false)) /\
      (forall j, j < n -> nth_error (hea n L fns prefix uuid) ((l * n + i) * (length fns + n) + length fns + j) =
          Some (NOT (TInt ((j + 1) mod n)) (IInt j) None false)).
Proof. exact c66_blocks_thm. Qed.
Print Assumptions C66_ansatz_structure.
Theorem C66_ansatz_parameters : forall str_of n L fns prefix uuid, Forall (fun f => In f [RX; RY; RZ; PHASE]) fns -> (forall i j, uuid i = uuid j -> i = j) ->
    n_vparams str_of (QuantumCircuit n (AList (map OGate (hea n L fns prefix uuid))) []) = L * n * length fns.
Proof. exact c66_names_thm. Qed.
Print Assumptions C66_ansatz_parameters.
Theorem C66_ansatz_applicable : forall n L fns prefix uuid vals, 2 <= n -> Forall (fun f => In f [RX; RY; RZ; PHASE]) fns ->
    (forall m, exists x, lookup vals (prefix ++ uuid m) = Ok (VNum x)) -> Forall (usable n vals) (hea n L fns prefix uuid).
Proof. exact c66_usable_thm. Qed.
Print Assumptions C66_ansatz_applicable.
Example C66_example : forall vals str_of, (forall m, exists x, lookup vals ("v_" ++ unary m) = Ok (VNum x)) ->
    Forall (usable 4 vals) (hea 4 3 [RX; RY; RX] "v_" unary) /\ n_vparams str_of (QuantumCircuit 4 (AList (map OGate (hea 4 3 [RX; RY; RX] "v_" unary))) []) = 36.
Proof.
  intros vals str_of V. split.
  - apply C66_ansatz_applicable; [lia| |exact V]. repeat (apply Forall_cons; [simpl; tauto|]). apply Forall_nil.
  - apply (C66_ansatz_parameters str_of 4 3 [RX; RY; RX] "v_" unary); [|apply unary_inj]. repeat (apply Forall_cons; [simpl; tauto|]). apply Forall_nil.
Qed.

(** C67: the ring of one qubit is NOT(0, 0), which cannot be applied. *)
Theorem C67_one_qubit_rotations_partial : forall L fns prefix uuid vals g, Forall (fun f => In f [RX; RY; RZ; PHASE]) fns ->
    (forall m, exists x, lookup vals (prefix ++ uuid m) = Ok (VNum x)) -> In g (hea 1 L fns prefix uuid) -> parametric g -> usable 1 vals g.
Proof. exact c67_partial_thm. Qed.
Print Assumptions C67_one_qubit_rotations_partial.
Theorem C67_one_qubit_ansatz_refuted : forall w L fns prefix uuid vals psi, 0 < L -> is_state 1 psi ->
    exists g e, In g (hea 1 L fns prefix uuid) /\ apply_gates w (SDense psi) (GOne g) vals UNITARY false true = Err e.
Proof. exact c67_refuted_thm. Qed.
Print Assumptions C67_one_qubit_ansatz_refuted.
Example C67_example : is_state 1 (basis [0]) /\ In (NOT (TInt 0) (IInt 0) None false) (hea 1 1 [RX] "v_" unary).
Proof. split; [split; reflexivity|]. right; left; reflexivity. Qed.

(** C68: a control given by NumPy integers only is ignored; it is honoured when there is a Python int among the controls. *)
Theorem C68_numpy_control_beside_int_partial : forall w s g l vals ot gr mg, control g = CTup l -> (exists k, In (QInt k) l) ->
    apply_gates w s (GOne g) vals ot gr mg = apply_gates w s (GOne (with_int_controls g)) vals ot gr mg /\
    gate_support g = gate_support (with_int_controls g).
Proof. exact c68_partial_thm. Qed.
Print Assumptions C68_numpy_control_beside_int_partial.
Example C68_partial_example : exists l, control (gX (TInt 2) (ITup [QInt 0; QNp 1]) None false) = CTup l /\ exists k, In (QInt k) l.
Proof. exists [QInt 0; QNp 1]. split; [reflexivity|]. exists 0. left; reflexivity. Qed.
Theorem C68_numpy_control_ignored_refuted : forall w s g l vals ot gr mg, control g = CTup (map QNp l) ->
    apply_gates w s (GOne g) vals ot gr mg = apply_gates w s (GOne (with_control CNone g)) vals ot gr mg.
Proof. exact c68_ignored. Qed.
Print Assumptions C68_numpy_control_ignored_refuted.
Theorem C68_numpy_control_refuted : forall w vals, exists r1 r2,
    apply_gates w (SDense (zero_state 2)) (GOne (gX (TInt 1) (INp 0) None false)) vals UNITARY false true = Ok (SDense r1) /\
    apply_gates w (SDense (zero_state 2)) (GOne (gX (TInt 1) (IInt 0) None false)) vals UNITARY false true = Ok (SDense r2) /\
    amp r1 [0; 1] = C1 /\ amp r2 [0; 1] = C0.
Proof. exact c68_refuted_thm. Qed.
Print Assumptions C68_numpy_control_refuted.

(** C69 *)
Theorem C69_number_of_qubits_partial : forall g q cs, target g = [q] -> control_qubits (control g) cs ->
    (control g = CNone \/ exists k, cs = [k] /\ k <> q) ->
    exists s, gate_support g = Ok s /\ n_qubits g = length s.
Proof. exact c69_partial_thm. Qed.
Print Assumptions C69_number_of_qubits_partial.
Example C69_partial_example : exists s, gate_support (gX (TInt 2) (IInt 5) None false) = Ok s /\ n_qubits (gX (TInt 2) (IInt 5) None false) = List.length s.
Proof.
  apply (C69_number_of_qubits_partial _ 2 [5]); [reflexivity|apply (cq_ints [5])|]. right. exists 5. split; [reflexivity|lia].
Qed.
Theorem C69_number_of_qubits_refuted : forall q a b c d ns sp,
    (n_qubits (gX (TInt q) no_control ns sp) = 2 /\ gate_support (gX (TInt q) no_control ns sp) = Ok [q]) /\
    (a <> b -> b <> c -> a <> c -> n_qubits (gX (TInt c) (ITup [QInt a; QInt b]) ns sp) = 2 /\
       exists s, gate_support (gX (TInt c) (ITup [QInt a; QInt b]) ns sp) = Ok s /\ length s = 3) /\
    (c <> d -> n_qubits (SWAP (TTup [c; d]) INone ns sp) = 1 /\ exists s, gate_support (SWAP (TTup [c; d]) INone ns sp) = Ok s /\ length s = 2).
Proof. exact c69_refuted_thm. Qed.
Print Assumptions C69_number_of_qubits_refuted.

(** C70 *)
Theorem C70_support_of_a_gate : forall g, int_controls g -> exists s, gate_support g = Ok s /\ StronglySorted lt s /\ forall q, In q s <-> occupies g q.
Proof. exact gate_support_exact. Qed.
Print Assumptions C70_support_of_a_gate.
Theorem C70_support_of_a_composite : forall w o, set_order (set_iter w) -> Forall int_controls (all_gates o) ->
    exists s, support w o = Ok s /\ NoDup s /\ forall q, In q s <-> exists g, In g (all_gates o) /\ occupies g q.
Proof. exact support_exact. Qed.
Print Assumptions C70_support_of_a_composite.
Example C70_example : gate_support st_rx = Ok [0; 1; 2] /\ int_controls st_rx /\ Forall int_controls (all_gates st_plain).
Proof.
  assert (E : int_controls st_rx) by (exists [0; 2]; apply (cq_ints [0; 2])).
  split; [reflexivity|]. split; [exact E|]. apply Forall_cons; [exact E|]. apply Forall_cons; [exists []; apply cq_default|]. apply Forall_cons; [exists []; apply cq_none|apply Forall_nil].
Qed.

(** C71: the zero state has as many qubits as the first gate touches, whatever their indices. *)
Theorem C71_call_without_state_partial : forall w vals k o, starts k o -> call w vals o None = call w vals o (Some (SDense (zero_state k))).
Proof. exact c71_partial_thm. Qed.
Print Assumptions C71_call_without_state_partial.
Example C71_partial_example : starts 3 (OSeq [OGate st_rx; OGate st_phase]).
Proof.
  apply st_seq, st_gate; [exists [0; 2]; apply (cq_ints [0; 2])|]. intro q. split.
  - intros (cs & C & I). inversion C as [Q|Q|cs' Q Q']. subst. destruct cs as [|a [|b [|c cs]]]; try discriminate. injection Q as -> ->. simpl in I. lia.
  - intro H. exists [0; 2]. split; [apply (cq_ints [0; 2])|]. simpl. lia.
Qed.
Theorem C71_call_without_state_refuted : forall w vals q, 0 < q -> exists e,
    call w vals (OGate (gX (TInt q) no_control None false)) None = Err e /\
    forall n, q < n -> exists r, call w vals (OGate (gX (TInt q) no_control None false)) (Some (SDense (zero_state n))) = Ok (Some (SDense r)).
Proof. exact c71_refuted_thm. Qed.
Print Assumptions C71_call_without_state_refuted.
Example C71_refuted_example : exists e, call ex_world [] (OGate (gX (TInt 3) no_control None false)) None = Err e.
Proof. destruct (C71_call_without_state_refuted ex_world [] 3) as (e & E & _); [lia|]. exists e; exact E. Qed.

(** C72 *)
Theorem C72_product_state : forall n b, In b (bitstrings n) ->
    is_state n (product_state b) /\ veq n (amp (product_state b)) (ket b) /\ norm2 n (amp (product_state b)) = 1%R /\
    todense (b_product_state b) = product_state b.
Proof. exact c72_product_thm. Qed.
Print Assumptions C72_product_state.
Example C72_product_example : In [1; 0; 1] (bitstrings 3) /\ amp (product_state [1; 0; 1]) [1; 0; 1] = C1 /\ amp (product_state [1; 0; 1]) [1; 0; 0] = C0.
Proof.
  assert (I : In [1; 0; 1] (bitstrings 3)) by (simpl; tauto). split; [exact I|].
  destruct (C72_product_state 3 [1; 0; 1] I) as (_ & V & _). split; apply V; simpl; tauto.
Qed.
Theorem C72_zero_state : forall n, In (repeat 0 n) (bitstrings n) /\ zero_state n = product_state (repeat 0 n) /\ is_state n (zero_state n) /\
    veq n (amp (zero_state n)) (ket (repeat 0 n)) /\ norm2 n (amp (zero_state n)) = 1%R /\ todense (b_zero_state n) = zero_state n.
Proof. exact c72_zero_thm. Qed.
Print Assumptions C72_zero_state.
Theorem C72_uniform_state : forall n, exists a b, uniform_state n = Ok a /\ is_state n a /\
    (forall x, In x (bitstrings n) -> amp a x = RtoC (1 / sqrt (2 ^ n))) /\ norm2 n (amp a) = 1%R /\ b_uniform_state n = Ok b /\ todense b = a.
Proof. exact c72_uniform_thm. Qed.
Print Assumptions C72_uniform_state.
Theorem C72_random_state : forall n u, length u = 2 ^ n -> Forall (fun t => 0 < t < 1)%R u ->
    exists a b, random_state n u = Ok a /\ is_state n a /\ norm2 n (amp a) = 1%R /\ b_random_state n u = Ok b /\ todense b = a.
Proof. exact c72_random_thm. Qed.
Print Assumptions C72_random_state.
Example C72_random_example : exists a b, random_state 1 [1 / 2; 1 / 3]%R = Ok a /\ norm2 1 (amp a) = 1%R /\ b_random_state 1 [1 / 2; 1 / 3]%R = Ok b.
Proof.
  destruct (C72_random_state 1 [1 / 2; 1 / 3]%R) as (a & b & E & _ & N & B & _); [reflexivity|repeat (apply Forall_cons; [lra|]); apply Forall_nil|]. exists a, b; auto.
Qed.

(** C73: the inner product is squared without taking its modulus. *)
Theorem C73_overlap_of_real_inner_product_partial : forall n a b, is_state n a -> is_state n b -> im (inner_product n (amp a) (amp b)) = 0%R ->
    overlap a b = Ok (Cnorm2 (inner_product n (amp a) (amp b))).
Proof. exact c73_partial_thm. Qed.
Print Assumptions C73_overlap_of_real_inner_product_partial.
Example C73_partial_example : im (inner_product 1 (amp plus1) (amp (basis [0]))) = 0%R.
Proof. lazy -[Rplus Rmult Ropp Rminus IZR Rdiv Rinv sqrt]. ring. Qed.
Theorem C73_overlap_refuted : forall n a, is_state n a -> norm2 n (amp a) = 1%R ->
    exists b, is_state n b /\ veq n (amp b) (fun x => Cmul Ci (amp a x)) /\ norm2 n (amp b) = 1%R /\
      Cnorm2 (inner_product n (amp a) (amp b)) = 1%R /\ overlap a b = Ok (-1)%R /\ equivalent_state a b = Ok false.
Proof. exact c73_refuted_thm. Qed.
Print Assumptions C73_overlap_refuted.
Example C73_refuted_example : norm2 1 (amp (basis [0])) = 1%R.
Proof. lazy -[Rplus Rmult Ropp Rminus IZR Rdiv Rinv sqrt]. ring. Qed.

(** C74 *)
Theorem C74_is_normalized : forall n a, is_state n a -> exists b, is_normalized a = Ok b /\
    (b = true <-> (Rabs (norm2 n (amp a) * norm2 n (amp a) - 1) <= / 10 ^ 14 + / 10 ^ 5)%R) /\ (norm2 n (amp a) = 1%R -> b = true).
Proof. exact c74_thm. Qed.
Print Assumptions C74_is_normalized.
Example C74_example : is_normalized (zero_state 5) = Ok true.
Proof.
  destruct (C72_zero_state 5) as (_ & _ & S & _ & N & _). destruct (C74_is_normalized 5 (zero_state 5) S) as (b & E & _ & H). rewrite E, (H N). reflexivity.
Qed.

(** C77: a sequence inside the sum is flattened. *)
Theorem C77_fresh_sums_of_gates_partial : forall w n vals sq o K, sum_of_gates o -> denotes w n vals sq o K ->
    exists K', denotes w n vals sq (Add (AOp o)) K' /\ keq n K' K /\
      exists l, Observable (AOp o) = OObs l /\ observable_on w n vals sq l K'.
Proof. exact c77_partial_thm. Qed.
Print Assumptions C77_fresh_sums_of_gates_partial.
Example C77_partial_example : sum_of_gates (OAdd [x0_gate; OAdd [z0_gate; x0_gate]]) /\ exists K, denotes ex_world 1 [] true (OAdd [x0_gate; OAdd [z0_gate; x0_gate]]) K.
Proof.
  split.
  - apply sg_add. apply Forall_cons; [apply sg_gate|]. apply Forall_cons; [apply sg_add|apply Forall_nil]. repeat (apply Forall_cons; [apply sg_gate|]). apply Forall_nil.
  - assert (X : denotes ex_world 1 [] true x0_gate (gate_op X_matrix [] [0])).
    { apply (den_gate ex_world 1 [] true (gX (TInt 0) no_control None false)); [|reflexivity|reflexivity]. split; [eapply gm_fixed; [reflexivity|reflexivity|reflexivity|simpl; tauto]|apply cq_default|reflexivity|in_range]. }
    assert (Z : denotes ex_world 1 [] true z0_gate (gate_op Z_matrix [] [0])).
    { apply (den_gate ex_world 1 [] true (gZ (TInt 0) no_control None false)); [|reflexivity|reflexivity]. split; [eapply gm_fixed; [reflexivity|reflexivity|reflexivity|simpl; tauto]|apply cq_default|reflexivity|in_range]. }
    eexists. apply den_add; [discriminate|]. apply Forall2_cons; [exact X|]. apply Forall2_cons; [|apply Forall2_nil]. apply den_add; [discriminate|]. apply Forall2_cons; [exact Z|]. apply Forall2_cons; [exact X|apply Forall2_nil].
Qed.
Theorem C77_fresh_sums_refuted : forall w, let o := OAdd [OSeq [x0_gate; z0_gate]; x0_gate] in exists out out',
    run w o (SDense (zero_state 1)) [] = Ok (Some (SDense out)) /\ run w (Add (AOp o)) (SDense (zero_state 1)) [] = Ok (Some (SDense out')) /\
    amp out [0] = C0 /\ amp out [1] = C0 /\ amp out' [0] = C1 /\ amp out' [1] = RtoC 2.
Proof. exact c77_refuted_thm. Qed.
Print Assumptions C77_fresh_sums_refuted.

(** C78: density matrices can be neither added nor scaled. *)
Theorem C78_single_term_on_a_density_matrix_partial : forall w n vals g M cs ts rho, set_order (set_iter w) -> gate_on n vals g M cs ts -> dense_gate g -> noiseless g -> is_density n rho ->
    exists out, is_density n out /\ keq n (rho_entry out) (sandwiched n (gate_op M cs ts) (rho_entry rho)) /\
      call w vals (OAdd [OGate g]) (Some (SDM rho)) = Ok (Some (SDM out)) /\ forward w vals [OGate g] (Some (SDM rho)) = Ok (Some (SDM out)).
Proof. exact c78_partial_thm. Qed.
Print Assumptions C78_single_term_on_a_density_matrix_partial.
Example C78_partial_example : set_order (set_iter ex_world) /\ usable 1 [] (gX (TInt 0) no_control None false) /\ is_density 1 (mixed 1).
Proof. split; [apply ex_world_order|]. split; [exact x0_usable|apply mixed_density]. Qed.
Theorem C78_density_matrix_composites_refuted : forall w vals a g h gs p r,
    call w vals (OAdd (OGate g :: OGate h :: gs)) (Some (SDM a)) <> Ok r /\
    forward w vals (OGate g :: OGate h :: gs) (Some (SDM a)) <> Ok r /\
    call w vals (OScale [OGate g] p) (Some (SDM a)) <> Ok r.
Proof. exact c78_refuted_thm. Qed.
Print Assumptions C78_density_matrix_composites_refuted.
