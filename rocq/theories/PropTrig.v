(** * C104, C105 and the exact error of C54: expectations as functions of one parameter.

    The vocabulary is in Spec.v, GateSpec.v, PropSpec.v, ExpectSpec.v, GpsrSpec.v, StructSpec.v, PhysSpec.v and TrigSpec.v.
    Every theorem is followed by an example that meets its hypotheses. *)
From Coq Require Import String List Arith Bool Reals Lia Lra ZArith.
From Verif Require Import Cplx Py Ndarray OperatorUtils ApplyOperator Sparse Matrices Noise Gates Apply Composite Conversion Shots Gpsr Api
  Spec GateSpec PropSpec NoiseSpec SampleSpec ExpectSpec GpsrSpec StructSpec PhysSpec TrigSpec SpecFacts NoiseThm ExpectThm2 GpsrThm GpsrThm2 GpsrThm3 TrigThm TrigThm2 Examples.
Import ListNotations.
Local Open Scope nat_scope.

(** C104: every expectation is a trigonometric polynomial of each parameter, of degree the number of gates that use it (in half the angle,
    and twice that number, if a controlled rotation uses it) *)
Theorem C104_expectation_is_a_trigonometric_polynomial : forall w n vals c gs st obs Ks name mode key, set_order (set_iter w) -> flat_values vals -> runnable n vals c gs -> state_of n st -> obs <> [] ->
    In name (map fst vals) -> (forall t, Forall2 (readable w n (at_value vals name t) st gs) obs Ks) -> exact_mode mode ->
    exists fs : list (R -> R), length fs = length obs /\
      (forall t, expectation w st c obs (at_value vals name t) mode 0 key = Ok (map (fun f => f t) fs)) /\
      Forall (fun f => trig_poly (2 * uses gs name) (fun s => f (2 * s)%R)) fs /\
      (no_controlled_rotation gs name -> Forall (trig_poly (uses gs name)) fs).
Proof. exact c104_trig. Qed.
Print Assumptions C104_expectation_is_a_trigonometric_polynomial.
(** and it is periodic *)
Theorem C104_expectation_is_periodic : forall w n vals c gs st obs Ks name mode key, set_order (set_iter w) -> flat_values vals -> runnable n vals c gs -> state_of n st -> obs <> [] ->
    In name (map fst vals) -> (forall t, Forall2 (readable w n (at_value vals name t) st gs) obs Ks) -> exact_mode mode ->
    (forall t, expectation w st c obs (at_value vals name (t + 4 * PI)) mode 0 key = expectation w st c obs (at_value vals name t) mode 0 key) /\
    (no_controlled_rotation gs name -> forall t, expectation w st c obs (at_value vals name (t + 2 * PI)) mode 0 key = expectation w st c obs (at_value vals name t) mode 0 key).
Proof. exact c104_period. Qed.
Print Assumptions C104_expectation_is_periodic.
(** a rotation of qubit 1 controlled by qubit 0, in the state |++> *)
Example crx_runnable : runnable 2 [("a"%string, VNum 1)] (OSeq [OGate crx]) [crx].
Proof.
  split; [apply (seq_sequence [crx])|]. split; [discriminate|]. split; [|split].
  - apply Forall_cons; [|apply Forall_nil].
    exists (RX_matrix (1 + 0)), [0], [1]. split; [eapply gm_rotation with (R_ := RX_matrix); simpl; eauto; eexists; split; reflexivity|apply (cq_ints [0])|reflexivity|in_range].
  - apply Forall_cons; [reflexivity|apply Forall_nil].
  - apply Forall_cons; [exact Logic.I|apply Forall_nil].
Qed.
Example crx_readable : forall v, Forall2 (readable ex_world 2 v (SDense plus2) [crx]) [x0_obs] [ksum [gate_op X_matrix [] [0]]].
Proof.
  intro v. apply Forall2_cons; [|apply Forall2_nil]. split; [exists false; apply x0_obs_on; lia|]. intro M. exfalso. revert M. apply no_mix. repeat (apply Forall_cons; [reflexivity|]). apply Forall_nil.
Qed.
Example C104_example : exists f, trig_poly 2 (fun s => f (2 * s)%R) /\
    (forall t, expectation ex_world (SDense plus2) (OSeq [OGate crx]) [x0_obs] [("a"%string, VNum t)] AD 0 0 = Ok [f t]) /\ (forall t, f (t + 4 * PI)%R = f t).
Proof.
  destruct (C104_expectation_is_a_trigonometric_polynomial ex_world 2 [("a"%string, VNum 1)] (OSeq [OGate crx]) [crx] (SDense plus2) [x0_obs] [ksum [gate_op X_matrix [] [0]]] "a" AD 0)
    as (fs & L & E & T & _);
    [exact ex_world_order|left; reflexivity|exact crx_runnable|split; reflexivity|discriminate|left; reflexivity|intro; apply crx_readable|constructor|].
  destruct fs as [|f [|? ?]]; try discriminate. exists f. split; [inversion T; assumption|]. split; [exact E|].
  intro t. destruct (C104_expectation_is_periodic ex_world 2 [("a"%string, VNum 1)] (OSeq [OGate crx]) [crx] (SDense plus2) [x0_obs] [ksum [gate_op X_matrix [] [0]]] "a" AD 0) as [P _];
    [exact ex_world_order|left; reflexivity|exact crx_runnable|split; reflexivity|discriminate|left; reflexivity|intro; apply crx_readable|constructor|].
  specialize (P t). rewrite !E in P. injection P as P. exact P.
Qed.

(** C105: and so it has a derivative with respect to each parameter *)
Theorem C105_expectation_is_differentiable : forall w n vals c gs st obs Ks name x mode key, set_order (set_iter w) -> flat_values vals -> runnable n vals c gs -> state_of n st -> obs <> [] ->
    lookup vals name = Ok (VNum x) -> (forall t, Forall2 (readable w n (at_value vals name t) st gs) obs Ks) -> exact_mode mode ->
    exists d, gradient_at (fun v => expectation w st c obs v mode 0 key) vals name d.
Proof. exact c105_derivable. Qed.
Print Assumptions C105_expectation_is_differentiable.
Example C105_example : exists d, gradient_at (fun v => expectation ex_world (SDense plus2) (OSeq [OGate crx]) [x0_obs] v AD 0 0) [("a"%string, VNum 1)] "a" d.
Proof.
  apply (C105_expectation_is_differentiable ex_world 2 _ (OSeq [OGate crx]) [crx] (SDense plus2) [x0_obs] [ksum [gate_op X_matrix [] [0]]] "a" 1);
    [exact ex_world_order|left; reflexivity|exact crx_runnable|split; reflexivity|discriminate|reflexivity|intro; apply crx_readable|constructor].
Qed.

(** C54: what GPSR returns for a parameter used once, whatever the controls: the part of the expectation that oscillates with half the angle
    is differentiated with a factor sqrt(2) too much, and the rest correctly *)
Theorem C54_gpsr_error_formula_partial : forall w n vals circuit gs st obs Ks key,
    set_order (set_iter w) -> numeric_values vals -> vals <> [] -> sequence_of circuit gs -> gs <> [] ->
    Forall (usable n vals) gs -> Forall dense_gate gs -> Forall noise_ok gs -> state_of n st -> obs <> [] -> used_once gs ->
    (forall v, Forall2 (readable w n v st gs) obs Ks) ->
    exists fwd grads, expectation w st circuit obs vals GPSR 0 key = Ok fwd /\ length grads = length vals /\
      (forall k name x, nth_error (map fst vals) k = Some name -> lookup vals name = Ok (VNum x) ->
        length (nth k grads []) = length obs /\
        forall i, i < length obs -> exists A B D P Q,
          (forall t, exists f, expectation w st circuit obs (at_value vals name t) GPSR 0 key = Ok f /\ nth i f 0%R = two_tones A B D P Q t) /\
          derivable_pt_lim (two_tones A B D P Q) x (two_tones_slope 1 B D P Q x) /\
          nth i (nth k grads []) 0%R = two_tones_slope (sqrt 2) B D P Q x) /\
      (Forall (fun g => gclass g <> KPhase) gs -> analytical_gpsr_bwd w st (GMany gs) obs vals = Ok (map total grads)) /\
      (forall tangents uuid, length tangents = length vals ->
        analytical_gpsr_jvp w st (GMany gs) obs vals tangents uuid = Ok (fwd, directional (length obs) grads tangents)).
Proof. exact c54_error. Qed.
Print Assumptions C54_gpsr_error_formula_partial.
Example C54_error_example : exists fwd grads A B D P Q,
    expectation ex_world (SDense plus2) (OSeq [OGate crx]) [x0_obs] [("a"%string, VNum 1)] GPSR 0 0 = Ok fwd /\
    (forall t, exists f, expectation ex_world (SDense plus2) (OSeq [OGate crx]) [x0_obs] [("a"%string, VNum t)] GPSR 0 0 = Ok f /\ nth 0 f 0%R = two_tones A B D P Q t) /\
    nth 0 (nth 0 grads []) 0%R = two_tones_slope (sqrt 2) B D P Q 1.
Proof.
  pose proof crx_runnable as (SQ & _ & FU & FD & FN).
  destruct (C54_gpsr_error_formula_partial ex_world 2 [("a"%string, VNum 1)] (OSeq [OGate crx]) [crx] (SDense plus2) [x0_obs] [ksum [gate_op X_matrix [] [0]]] 0)
    as (fwd & grads & E1 & _ & E2 & _);
    [exact ex_world_order|split; [repeat constructor; intros []|apply Forall_cons; [eexists; reflexivity|apply Forall_nil]]|discriminate|exact SQ|discriminate|exact FU|exact FD|exact FN
    |split; reflexivity|discriminate|repeat constructor; intros []|exact crx_readable|].
  destruct (E2 0 "a"%string 1%R eq_refl eq_refl) as [_ H]. destruct (H 0) as (A & B & D & P & Q & F1 & _ & F3); [simpl; lia|].
  exists fwd, grads, A, B, D, P, Q. split; [exact E1|]. split; [exact F1|exact F3].
Qed.
