(** * C131: expectations and outcome probabilities are polynomials in the error probability; zero-noise extrapolation.

    The vocabulary is in Spec.v, GateSpec.v, NoiseSpec.v, SampleSpec.v, ExpectSpec.v, GpsrSpec.v, PhysSpec.v, NoiseLawSpec.v, HeisSpec.v, FreqSpec.v
    and NoisePolySpec.v.  Every theorem is followed by an example that meets its hypotheses. *)
From Coq Require Import String List Arith Bool ZArith Reals Lia Lra.
From Verif Require Import Cplx Py Ndarray OperatorUtils ApplyOperator Sparse Matrices Noise Gates Apply Composite Conversion Shots Gpsr Api
  Spec GateSpec PropSpec NoiseSpec SampleSpec ShotsSpec ExpectSpec GpsrSpec StructSpec PhysSpec VarSpec HeisSpec FreqSpec NoiseLawSpec NoisePolySpec StructThm3 SampleThm ExpectThm2
  PhysThm PhysThm8 NoiseLawThm NoisePolyThm Examples ShotsThm.
Import ListNotations.
Local Open Scope nat_scope.

(** the degree is at most the number of noise instances that depend on p *)
Theorem C131_expectations_are_polynomials_in_the_error_probability : forall w n vals m gs st l K mode key, set_order (set_iter w) -> flat_values vals -> circuit_family m gs -> state_of n st -> exact_mode mode ->
    exists coefs, length coefs = S m /\
      forall p c, runnable n vals c (gs p) -> readable w n vals st (gs p) l K -> expectation w st c [l] vals mode 0 key = Ok [polynomial coefs p].
Proof. exact c131_expectation. Qed.
Print Assumptions C131_expectations_are_polynomials_in_the_error_probability.
(** a Bell circuit; depolarizing noise p after H, a fixed damping and a bit flip with probability 2p after the CNOT *)
Definition np_gates (p : R) : list gate :=
  [with_noise (map (fun f => f p) [fun p => depolarizing (0 + 1 * p)]) (plain gH 0);
   with_noise (map (fun f => f p) [fun _ => amplitude_damping (1 / 4); fun p => bitflip (0 + 2 * p)]) (gX (TInt 1) (IInt 0) None false)].
Example np_family : circuit_family 2 np_gates.
Proof.
  apply (cf_cons 1 _ 1). { apply (gf_noise (plain gH 0) [1]). repeat constructor. }
  apply (cf_cons 1 _ 0). { apply (gf_noise (gX (TInt 1) (IInt 0) None false) [0; 1]). repeat constructor. }
  apply cf_nil.
Qed.
Definition np_circuit (p : R) : oper := OpSequence (map OGate (np_gates p)).
Example np_run : forall p, (0 <= p <= 1 / 2)%R -> runnable 2 [] (np_circuit p) (np_gates p).
Proof.
  intros p HP. split; [apply sequence_gates|split; [discriminate|split; [|split; [repeat constructor|]]]].
  - apply Forall_cons; [do 3 eexists; split; [eapply gm_fixed; simpl; eauto 10|apply cq_default|reflexivity|apply valid_one; lia]|].
    apply Forall_cons; [do 3 eexists; split; [eapply gm_fixed; simpl; eauto 10|apply (cq_ints [0])|reflexivity|ex_side]|apply Forall_nil].
  - apply Forall_cons; [|apply Forall_cons; [|apply Forall_nil]]; (split; [reflexivity|]).
    + apply Forall_cons; [split; [exact Logic.I|unfold valid_parameter, is_prob; simpl; lra]|apply Forall_nil].
    + apply Forall_cons; [split; [exact Logic.I|unfold valid_parameter, is_prob; simpl; lra]|]. apply Forall_cons; [split; [exact Logic.I|unfold valid_parameter, is_prob; simpl; lra]|apply Forall_nil].
Qed.
Example C131_example : exists a b d, forall p, (0 <= p <= 1 / 2)%R -> expectation ex_world (SDense (basis [0; 1])) (np_circuit p) [pauli_observable PZ 1] [] AD 0 0 = Ok [(a + p * (b + p * (d + p * 0)))%R].
Proof.
  destruct (C131_expectations_are_polynomials_in_the_error_probability ex_world 2 [] 2 np_gates (SDense (basis [0; 1])) (pauli_observable PZ 1) (ksum [ctrl_kernel (pauli_op PZ) [] [1]]) AD 0 ex_world_order
    ltac:(left; reflexivity) np_family ltac:(split; reflexivity) ltac:(constructor)) as (coefs & L & E).
  destruct coefs as [|a [|b [|d [|? ?]]]]; try discriminate. exists a, b, d. intros p HP. apply (E p (np_circuit p)); [apply np_run; exact HP|apply pauli_readable; [exact ex_world_order|lia]].
Qed.

(** the probability of every property of the measured bitstring *)
Theorem C131_outcome_probabilities_are_polynomials : forall w n vals m gs st ev, set_order (set_iter w) -> circuit_family m gs -> state_of n st ->
    exists coefs, length coefs = S m /\
      forall p c, runnable n vals c (gs p) -> exists out, run w c st vals = Ok (Some out) /\ event_probability n ev out = polynomial coefs p.
Proof. exact c131_outcomes. Qed.
Print Assumptions C131_outcome_probabilities_are_polynomials.
Example C131_outcomes_example : exists coefs, length coefs = 3 /\ forall p, (0 <= p <= 1 / 2)%R -> exists out, run ex_world (np_circuit p) (SDense (basis [0; 1])) [] = Ok (Some out) /\
    event_probability 2 (fun x => Nat.eqb (nth 0 x 0) (nth 1 x 0)) out = polynomial coefs p.
Proof.
  destruct (C131_outcome_probabilities_are_polynomials ex_world 2 [] 2 np_gates (SDense (basis [0; 1])) (fun x => Nat.eqb (nth 0 x 0) (nth 1 x 0)) ex_world_order np_family ltac:(split; reflexivity)) as (coefs & L & E).
  exists coefs. split; [exact L|]. intros p HP. apply E, np_run, HP.
Qed.

(** zero-noise extrapolation: from as many error probabilities as there are noise instances, plus one, the value at another one is obtained exactly *)
Theorem C131_extrapolation_is_exact : forall w n vals m gs cs st l K mode key ps ws p0, set_order (set_iter w) -> flat_values vals -> circuit_family m gs -> state_of n st -> exact_mode mode ->
    extrapolates m ps ws p0 -> (forall p, In p (p0 :: ps) -> runnable n vals (cs p) (gs p) /\ readable w n vals st (gs p) l K) ->
    exists es, Forall2 (fun p e => expectation w st (cs p) [l] vals mode 0 key = Ok [e]) ps es /\ expectation w st (cs p0) [l] vals mode 0 key = Ok [weighted_sum ws es].
Proof. exact c131_extrapolation. Qed.
Print Assumptions C131_extrapolation_is_exact.
(** from p = 1/10, 2/10, 3/10 to p = 0 *)
Example np_weights : extrapolates 2 [1 / 10; 2 / 10; 3 / 10]%R [3; - 3; 1]%R 0.
Proof. split; [reflexivity|]. intros k Hk. destruct k as [|[|[|k]]]; try lia; cbn [combine map fst snd fold_right pow]; lra. Qed.
Example C131_extrapolation_example : exists e1 e2 e3,
    expectation ex_world (SDense (basis [0; 1])) (np_circuit (1 / 10)) [pauli_observable PZ 1] [] AD 0 0 = Ok [e1] /\
    expectation ex_world (SDense (basis [0; 1])) (np_circuit (2 / 10)) [pauli_observable PZ 1] [] AD 0 0 = Ok [e2] /\
    expectation ex_world (SDense (basis [0; 1])) (np_circuit (3 / 10)) [pauli_observable PZ 1] [] AD 0 0 = Ok [e3] /\
    expectation ex_world (SDense (basis [0; 1])) (np_circuit 0) [pauli_observable PZ 1] [] AD 0 0 = Ok [(3 * e1 + (- 3 * e2 + (1 * e3 + 0)))%R].
Proof.
  destruct (C131_extrapolation_is_exact ex_world 2 [] 2 np_gates np_circuit (SDense (basis [0; 1])) (pauli_observable PZ 1) (ksum [ctrl_kernel (pauli_op PZ) [] [1]]) AD 0 _ _ _ ex_world_order
    ltac:(left; reflexivity) np_family ltac:(split; reflexivity) ltac:(constructor) np_weights) as (es & F & E).
  - intros p HP. split; [apply np_run; simpl in HP; decompose [or] HP; try contradiction; subst; lra|apply pauli_readable; [exact ex_world_order|lia]].
  - inversion F as [|? e1 ? es1 E1 F1]; subst. inversion F1 as [|? e2 ? es2 E2 F2]; subst. inversion F2 as [|? e3 ? es3 E3 F3]; subst. inversion F3; subst. exists e1, e2, e3.
    split; [exact E1|split; [exact E2|split; [exact E3|exact E]]].
Qed.
