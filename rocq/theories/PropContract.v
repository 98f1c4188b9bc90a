(** * C125: a circuit never makes two states easier to tell apart.

    The vocabulary is in Spec.v, GateSpec.v, PropSpec.v, SampleSpec.v, ExpectSpec.v, ShotsSpec.v, GpsrSpec.v, PhysSpec.v, VarSpec.v, HeisSpec.v, FreqSpec.v
    and ContractSpec.v.  Every theorem is followed by an example that meets its hypotheses. *)
From Coq Require Import String List Arith Bool ZArith Reals Lia Lra.
From Verif Require Import Cplx Py Ndarray OperatorUtils ApplyOperator Sparse Matrices Noise Gates Apply Composite Conversion Shots Gpsr Api
  Spec GateSpec PropSpec NoiseSpec SampleSpec ShotsSpec ExpectSpec GpsrSpec StructSpec PhysSpec VarSpec HeisSpec FreqSpec ContractSpec AlgebraFacts StructThm3 SampleThm ExpectThm2
  PhysThm VarThm ContractThm Examples ShotsThm.
Import ListNotations.
Local Open Scope nat_scope.

(** two state vectors whose difference has length at most eps are within eps *)
Theorem C125_close_amplitudes : forall n a b eps, is_state n a -> is_state n b -> physical n (SDense a) -> physical n (SDense b) -> (0 < eps)%R ->
    (norm2 n (fun x => Csub (amp a x) (amp b x)) <= eps * eps)%R -> within n eps (SDense a) (SDense b).
Proof. exact c125_amplitudes. Qed.
Print Assumptions C125_close_amplitudes.
(** |00> and 24/25 |00> + 7/25 |01> *)
Definition ct_zero : arr := mkArr [2; 2] [C1; C0; C0; C0].
Definition ct_tilted : arr := mkArr [2; 2] [RtoC (24 / 25); RtoC (7 / 25); C0; C0].
Example ct_states : state_of 2 (SDense ct_zero) /\ state_of 2 (SDense ct_tilted) /\ physical 2 (SDense ct_zero) /\ physical 2 (SDense ct_tilted).
Proof.
  split; [split; reflexivity|split; [split; reflexivity|split]]; unfold physical, norm2; lazy -[Rplus Rmult Ropp Rminus Rdiv Rinv IZR]; lra.
Qed.
Example C125_amplitudes_example : within 2 (3 / 10) (SDense ct_zero) (SDense ct_tilted).
Proof.
  destruct ct_states as (S & S' & P & P'). apply (C125_close_amplitudes 2 ct_zero ct_tilted (3 / 10) S S' P P'); [lra|].
  unfold norm2; lazy -[Rplus Rmult Ropp Rminus Rdiv Rinv IZR Rle]. lra.
Qed.

(** whatever measurement is made at the end, the outputs differ by at most as much as the inputs could *)
Theorem C125_circuits_do_not_amplify_differences : forall w n vals c gs st st' eps, set_order (set_iter w) -> runnable n vals c gs -> state_of n st -> state_of n st' -> within n eps st st' ->
    exists out out', run w c st vals = Ok (Some out) /\ run w c st' vals = Ok (Some out') /\ within n eps out out'.
Proof. exact c125_states. Qed.
Print Assumptions C125_circuits_do_not_amplify_differences.
(** a Bell circuit with a noisy CNOT *)
Definition ct_gates : list gate := [plain gH 0; gX (TInt 1) (IInt 0) (Some [mkNoise BITFLIP (PFloat (1 / 8)); mkNoise AMPLITUDE_DAMPING (PFloat (1 / 3))]) false].
Example ct_run : runnable 2 [] (OpSequence (map OGate ct_gates)) ct_gates.
Proof.
  split; [apply sequence_gates|split; [discriminate|split; [|split; [repeat constructor|]]]].
  - apply Forall_cons; [do 3 eexists; split; [eapply gm_fixed; simpl; eauto 10|apply cq_default|reflexivity|apply valid_one; lia]|].
    apply Forall_cons; [do 3 eexists; split; [eapply gm_fixed; simpl; eauto 10|apply (cq_ints [0])|reflexivity|ex_side]|apply Forall_nil].
  - apply Forall_cons; [exact Logic.I|]. apply Forall_cons; [|apply Forall_nil]. split; [reflexivity|].
    apply Forall_cons; [split; [exact Logic.I|unfold valid_parameter, is_prob; simpl; lra]|]. apply Forall_cons; [split; [exact Logic.I|unfold valid_parameter, is_prob; simpl; lra]|apply Forall_nil].
Qed.
Example C125_example : exists out out', run ex_world (OpSequence (map OGate ct_gates)) (SDense ct_zero) [] = Ok (Some out) /\
    run ex_world (OpSequence (map OGate ct_gates)) (SDense ct_tilted) [] = Ok (Some out') /\ within 2 (3 / 10) out out'.
Proof.
  destruct ct_states as (S & S' & P & P').
  exact (C125_circuits_do_not_amplify_differences ex_world 2 [] _ ct_gates _ _ _ ex_world_order ct_run S S' C125_amplitudes_example).
Qed.

(** the probability of every property of the measured bitstring *)
Theorem C125_outcome_probabilities_stay_close : forall w n vals c gs st st' eps ev, set_order (set_iter w) -> runnable n vals c gs -> state_of n st -> state_of n st' -> within n eps st st' ->
    exists out out', run w c st vals = Ok (Some out) /\ run w c st' vals = Ok (Some out') /\
      (Rabs (event_probability n ev out - event_probability n ev out') <= eps)%R.
Proof. exact c125_outcomes. Qed.
Print Assumptions C125_outcome_probabilities_stay_close.
Definition ct_equal (x : list nat) : bool := Nat.eqb (nth 0 x 0) (nth 1 x 0).
Example C125_outcomes_example : exists out out', run ex_world (OpSequence (map OGate ct_gates)) (SDense ct_zero) [] = Ok (Some out) /\
    run ex_world (OpSequence (map OGate ct_gates)) (SDense ct_tilted) [] = Ok (Some out') /\
    (Rabs (event_probability 2 ct_equal out - event_probability 2 ct_equal out') <= 3 / 10)%R.
Proof.
  destruct ct_states as (S & S' & P & P').
  exact (C125_outcome_probabilities_stay_close ex_world 2 [] _ ct_gates _ _ _ _ ex_world_order ct_run S S' C125_amplitudes_example).
Qed.

(** expectation values differ by at most eps times the range of the observable *)
Theorem C125_expectations_stay_close : forall w n vals c gs st st' eps l K lo hi mode key, set_order (set_iter w) -> flat_values vals -> runnable n vals c gs ->
    state_of n st -> physical n st -> state_of n st' -> physical n st' -> within n eps st st' ->
    readable w n vals st gs l K -> readable w n vals st' gs l K -> bounded_below n K lo -> bounded_above n K hi -> exact_mode mode ->
    exists e e', expectation w st c [l] vals mode 0 key = Ok [e] /\ expectation w st' c [l] vals mode 0 key = Ok [e'] /\ (Rabs (e - e') <= eps * (hi - lo))%R.
Proof. exact c125_expectation. Qed.
Print Assumptions C125_expectations_stay_close.
(** X on |0> and on 24/25 |0> + 7/25 |1>, then the observable Z *)
Definition ct_one : arr := mkArr [2] [RtoC (24 / 25); RtoC (7 / 25)].
Example ct_oZ : bounded_below 1 oZ (-1) /\ bounded_above 1 oZ 1.
Proof.
  assert (Q : forall f, re (qform 1 oZ f) = (Cnorm2 (f [0%nat]) - Cnorm2 (f [1%nat]))%R).
  { intro f. unfold qform, inner_product, apply_kernel, oZ. cbn [ksum]. unfold gate_op, ctrl_kernel. lazy -[Rplus Rmult Ropp Rminus IZR]. destruct (f [0]), (f [1]). lazy -[Rplus Rmult Ropp Rminus IZR]. ring. }
  assert (N : forall f, norm2 1 f = (Cnorm2 (f [0%nat]) + Cnorm2 (f [1%nat]))%R) by (intro f; unfold norm2; cbn; ring).
  split; intro f; rewrite Q, N; [pose proof (Cnorm2_nonneg (f [0]))|pose proof (Cnorm2_nonneg (f [1]))]; lra.
Qed.
Example ct_runnable : runnable 1 [] (OpSequence [x0_gate]) [gX q0 no_control None false].
Proof.
  split; [exact x0_sequence|split; [discriminate|split; [apply Forall_cons; [exact x0_usable|apply Forall_nil]|split; [apply Forall_cons; [reflexivity|apply Forall_nil]|apply Forall_cons; [exact Logic.I|apply Forall_nil]]]]].
Qed.
Example ct_readable : forall a, readable pauli_world 1 [] (SDense a) [gX q0 no_control None false] [z0_gate] oZ.
Proof.
  intro a. split; [exists false; exact (z0_on _)|]. intros [(b & E)|(g & [<-|[]] & N)]; [discriminate|]. elim N. reflexivity.
Qed.
Example C125_expectation_example : exists e e', expectation pauli_world (SDense (zero_state 1)) (OpSequence [x0_gate]) [[z0_gate]] [] AD 0 0 = Ok [e] /\
    expectation pauli_world (SDense ct_one) (OpSequence [x0_gate]) [[z0_gate]] [] AD 0 0 = Ok [e'] /\ (Rabs (e - e') <= 3 / 5)%R.
Proof.
  assert (P : physical 1 (SDense (zero_state 1))) by (unfold physical, norm2; lazy -[Rplus Rmult Ropp Rminus IZR]; ring).
  assert (P' : physical 1 (SDense ct_one)) by (unfold physical, norm2; lazy -[Rplus Rmult Ropp Rminus Rdiv Rinv IZR]; lra).
  assert (W : within 1 (3 / 10) (SDense (zero_state 1)) (SDense ct_one)).
  { apply C125_close_amplitudes; [split; reflexivity|split; reflexivity|exact P|exact P'|lra|]. unfold norm2; lazy -[Rplus Rmult Ropp Rminus Rdiv Rinv IZR Rle]. lra. }
  destruct (C125_expectations_stay_close pauli_world 1 [] (OpSequence [x0_gate]) [gX q0 no_control None false] (SDense (zero_state 1)) (SDense ct_one) (3 / 10) [z0_gate] oZ (-1) 1 AD 0
    pauli_world_order (or_introl eq_refl) ct_runnable (Logic.conj eq_refl eq_refl) P (Logic.conj eq_refl eq_refl) P' W (ct_readable _) (ct_readable _) (proj1 ct_oZ) (proj2 ct_oZ) exact_AD)
    as (e & e' & E & E' & B). exists e, e'. split; [exact E|split; [exact E'|lra]].
Qed.
