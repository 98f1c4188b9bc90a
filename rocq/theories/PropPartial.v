(** * More about the partial properties C12, C24, C31, C48 and C73: what holds where the full statement fails.

    The vocabulary is in Spec.v, GateSpec.v, PropSpec.v, NoiseSpec.v, SampleSpec.v, ExpectSpec.v, StructSpec.v and GroupSpec.v.  Every theorem
    is followed by an example that meets its hypotheses. *)
From Coq Require Import String List Arith Bool Reals Lia Lra ZArith.
From Verif Require Import Cplx Py Ndarray OperatorUtils ApplyOperator Sparse Matrices Noise Gates Apply Composite Shots Api
  Spec Deriv GateSpec PropSpec NoiseSpec SampleSpec ExpectSpec StructSpec GroupSpec NoiseThm GpsrThm3 ExpectThm2 GroupThm2 SeparateThm PartialThm Examples.
Import ListNotations.
Local Open Scope nat_scope.

(** C12: grouping changes nothing, gates on several targets or with noise included, if among gates without a controlled one between them those that
    share a qubit come in the order of their target tuples *)
Theorem C12_grouping_ordered_gates_partial : forall w n vals ot mg gs s,
    set_order (set_iter w) ->
    Forall (usable n vals) gs -> Forall dense_gate gs -> Forall noise_ok gs -> Forall (has_operation ot) gs ->
    grouping_keeps_order gs -> state_of n s ->
    apply_gates w s (GMany gs) vals ot true mg = apply_gates w s (GMany gs) vals ot false mg.
Proof. exact c12_group. Qed.
Print Assumptions C12_grouping_ordered_gates_partial.
Definition ex_swap_group : list gate := [gX (TInt 2) no_control None false; SWAP (TTup [0; 1]) no_control None false; gH (TInt 1) no_control None false].
Example C12_partial_example : group_by_index ex_swap_group <> ex_swap_group /\ forall w, set_order (set_iter w) ->
    apply_gates w (SDense (basis [0; 1; 1])) (GMany ex_swap_group) [] UNITARY true true =
    apply_gates w (SDense (basis [0; 1; 1])) (GMany ex_swap_group) [] UNITARY false true.
Proof.
  split; [discriminate|]. intros w SO. apply C12_grouping_ordered_gates_partial with (n := 3); [exact SO| | | | | |ex_side].
  - unfold ex_swap_group. apply Forall_cons; [do 3 eexists; split; [eapply gm_fixed; simpl; eauto 10|apply cq_default|reflexivity|apply valid_one; lia]|].
    apply Forall_cons; [do 3 eexists; split; [apply gm_SWAP; reflexivity|apply cq_default|reflexivity|ex_side]|].
    apply Forall_cons; [do 3 eexists; split; [eapply gm_fixed; simpl; eauto 10|apply cq_default|reflexivity|apply valid_one; lia]|]. apply Forall_nil.
  - repeat constructor.
  - repeat constructor.
  - repeat constructor; discriminate.
  - intros a g b h c E _. unfold ex_swap_group in E.
    destruct a as [|? [|? [|? a]]]; [destruct b as [|? [|? b]]|destruct b as [|? b]|destruct b|destruct a]; try discriminate; injection E; intros; subst; try (destruct b; discriminate).
    + right. intros q [<-|[]] [Q|[Q|[]]]; discriminate.
    + right. intros q [<-|[]] [Q|[]]; discriminate.
    + left. cbn. constructor. lia.
Qed.

(** C24: under controls, the JACOBIAN application differentiates the amplitudes whose controls are all 1, and leaves the others as they were,
    although their derivative is 0 *)
Theorem C24_jacobian_of_controlled_phase_partial : forall w n psi g (V : R -> values) b t cs,
    is_state n psi -> gclass g = KPhase -> dense_gate g -> noiseless g -> List.length (target g) = 1 ->
    control_qubits (control g) cs -> valid_qubits n (cs ++ target g) ->
    (forall s, angle (V s) g (s + b)%R) ->
    exists out dout,
      (forall s, apply_gates w (SDense psi) (GOne g) (V s) UNITARY false true = Ok (SDense (out s))) /\
      apply_gates w (SDense psi) (GOne g) (V t) JACOBIAN false true = Ok (SDense dout) /\ is_state n dout /\
      forall x, In x (bitstrings n) ->
        (all_ones (bits_at x cs) = true -> Cderiv (fun s => amp (out s) x) t (amp dout x)) /\
        (all_ones (bits_at x cs) = false -> Cderiv (fun s => amp (out s) x) t C0 /\ amp dout x = amp psi x).
Proof. exact c24_controlled. Qed.
Print Assumptions C24_jacobian_of_controlled_phase_partial.
Example C24_controlled_example : exists out dout,
    (forall s, apply_gates ex_world (SDense (basis [1; 1])) (GOne (PHASE (PName "a") (TInt 1) (IInt 0) None false))
                 [("a"%string, VNum s)] UNITARY false true = Ok (SDense (out s))) /\
    apply_gates ex_world (SDense (basis [1; 1])) (GOne (PHASE (PName "a") (TInt 1) (IInt 0) None false))
      [("a"%string, VNum 2%R)] JACOBIAN false true = Ok (SDense dout) /\ is_state 2 dout /\
    forall x, In x (bitstrings 2) ->
      (all_ones (bits_at x [0]) = true -> Cderiv (fun s => amp (out s) x) 2 (amp dout x)) /\
      (all_ones (bits_at x [0]) = false -> Cderiv (fun s => amp (out s) x) 2 C0 /\ amp dout x = amp (basis [1; 1]) x).
Proof.
  apply (C24_jacobian_of_controlled_phase_partial ex_world 2 (basis [1; 1]) (PHASE (PName "a") (TInt 1) (IInt 0) None false) (fun s => [("a"%string, VNum s)]) 0 2 [0]);
    [ex_side|reflexivity|reflexivity|reflexivity|reflexivity| | | ].
  - apply (cq_ints [0]).
  - split; [repeat constructor; simpl; intuition discriminate|repeat constructor].
  - intro s; eexists; split; reflexivity.
Qed.

(** C31: noise on a gate with one target is accepted whatever its controls, and acts as the gate followed by the channels on the target *)
Theorem C31_noise_on_controlled_gates_partial : forall w n vals g M cs q l s gr mg,
    set_order (set_iter w) -> gate_on n vals g M cs [q] -> dense_gate g -> noise g = Some l -> Forall (fun i => well_typed i /\ valid_parameter i) l ->
    (exists psi, is_state n psi /\ s = SDense psi) \/ (exists rho, is_density n rho /\ s = SDM rho) ->
    exists out rho', apply_gates w s (GOne g) vals UNITARY gr mg = Ok (SDM out) /\ is_density n out /\
      through n q l (sandwiched n (gate_op M cs [q]) (density_of s)) rho' /\ keq n (rho_entry out) rho'.
Proof. exact c31_controlled. Qed.
Print Assumptions C31_noise_on_controlled_gates_partial.
Definition ex_two_channels : list noise_inst := [mkNoise BITFLIP (PFloat (1 / 4)); mkNoise AMPLITUDE_DAMPING (PFloat (1 / 2))]%R.
Example C31_partial_example : exists out rho',
    apply_gates ex_world (SDense (basis [0; 1; 1])) (GOne (gX (TInt 0) (ITup [QInt 1; QInt 2]) (Some ex_two_channels) false)) [] UNITARY false true = Ok (SDM out) /\
    is_density 3 out /\ through 3 0 ex_two_channels (sandwiched 3 (gate_op GateSpec.X_matrix [1; 2] [0]) (density_of (SDense (basis [0; 1; 1])))) rho' /\ keq 3 (rho_entry out) rho'.
Proof.
  apply C31_noise_on_controlled_gates_partial;
    [apply ex_world_order|split; [eapply gm_fixed; simpl; eauto 10|apply (cq_ints [1; 2])|reflexivity|ex_side]|reflexivity|reflexivity
    |repeat apply Forall_cons; try apply Forall_nil; (split; [exact Logic.I|unfold valid_parameter, is_prob; simpl; lra])|left; eexists; split; [|reflexivity]; ex_side].
Qed.

(** C48: separate values work in the other modes too if the names are repeated at the top level *)
Theorem C48_repeated_values_partial : forall w st circuit obs d v o key key', separate_values d v o ->
    agree_on (names_of circuit) v d -> agree_on (flat_map names_of (List.concat obs)) o d -> obs <> [] ->
    expectation w st circuit obs d GPSR 0 key = expectation w st circuit obs d AD 0 key' /\
    (scalable st -> noise_free circuit -> forall k, expectation w st circuit obs d ADJOINT k key = expectation w st circuit obs d AD 0 key').
Proof. exact c48_repeated. Qed.
Print Assumptions C48_repeated_values_partial.
Example C48_partial_example : forall w k,
    let d := [("circuit", VDict [("a", VNum 3)]); ("observables", VDict []); ("a", VNum 3)]%string in
    expectation w (SDense (zero_state 1)) (OSeq [OGate (RX (PName "a") (TInt 0) no_control None false)]) [[OGate (gZ (TInt 0) no_control None false)]] d GPSR 0 0 =
    expectation w (SDense (zero_state 1)) (OSeq [OGate (RX (PName "a") (TInt 0) no_control None false)]) [[OGate (gZ (TInt 0) no_control None false)]] d AD 0 0 /\
    expectation w (SDense (zero_state 1)) (OSeq [OGate (RX (PName "a") (TInt 0) no_control None false)]) [[OGate (gZ (TInt 0) no_control None false)]] d ADJOINT k 0 =
    expectation w (SDense (zero_state 1)) (OSeq [OGate (RX (PName "a") (TInt 0) no_control None false)]) [[OGate (gZ (TInt 0) no_control None false)]] d AD 0 0.
Proof.
  intros w k d.
  destruct (C48_repeated_values_partial w (SDense (zero_state 1)) (OSeq [OGate (RX (PName "a") (TInt 0) no_control None false)]) [[OGate (gZ (TInt 0) no_control None false)]] d [("a", VNum 3)]%string [] 0 0) as [A B].
  - split; reflexivity.
  - intros name [<-|[]]. reflexivity.
  - intros name [].
  - discriminate.
  - split; [exact A|]. apply B; [exact Logic.I|]. intros gs E. injection E as <-. repeat constructor.
Qed.

(** C73: what overlap returns: the real part of the square of the inner product, so the squared modulus exactly when the inner product is real *)
Theorem C73_overlap_exact_partial : forall n a b, is_state n a -> is_state n b ->
    overlap a b = Ok (re (Cmul (inner_product n (amp a) (amp b)) (inner_product n (amp a) (amp b)))) /\
    (overlap a b = Ok (Cnorm2 (inner_product n (amp a) (amp b))) <-> im (inner_product n (amp a) (amp b)) = 0%R).
Proof. exact c73_exact. Qed.
Print Assumptions C73_overlap_exact_partial.
Example C73_exact_example : is_state 1 plus1 /\ is_state 1 (basis [0]).
Proof. split; ex_side. Qed.
