(** * C120: what happens outside the light cone of a register cannot be noticed by measuring the register.

    The vocabulary is in Spec.v, GateSpec.v, PhysSpec.v, HeisSpec.v, FreqSpec.v and SignalSpec.v.  Every theorem is followed by an example that meets its
    hypotheses. *)
From Coq Require Import String List Arith Bool ZArith Reals Lia Lra.
From Verif Require Import Cplx Py Ndarray OperatorUtils ApplyOperator Sparse Matrices Noise Gates Apply Composite Conversion Shots Gpsr Api
  Spec GateSpec PropSpec NoiseSpec SampleSpec ShotsSpec ExpectSpec GpsrSpec StructSpec PhysSpec HeisSpec FreqSpec SignalSpec StructThm3 SampleThm ExpectThm2 GpsrFacts PhysThm PauliThm SignalThm Examples.
Import ListNotations.
Local Open Scope nat_scope.

(** gates outside the light cone of the qubits [S] do not change the probabilities of events on [S] *)
Theorem C120_outcomes_have_a_light_cone : forall w n vals S c c' gs gs' st ev, set_order (set_iter w) -> runnable n vals c gs -> runnable n vals c' gs' -> state_of n st ->
    light_cone S gs gs' -> event_on n S ev ->
    exists out out', run w c st vals = Ok (Some out) /\ run w c' st vals = Ok (Some out') /\ event_probability n ev out = event_probability n ev out'.
Proof. exact c120_cone. Qed.
Print Assumptions C120_outcomes_have_a_light_cone.
(** gates, noisy or not, applied later to other qubits do not change them, even if those qubits are entangled with [S] *)
Theorem C120_no_signalling : forall w n vals S c c' gs more st ev, set_order (set_iter w) -> runnable n vals c gs -> runnable n vals c' (gs ++ more) -> state_of n st ->
    (forall g q, In g more -> occupies g q -> ~ S q) -> event_on n S ev ->
    exists out out', run w c st vals = Ok (Some out) /\ run w c' st vals = Ok (Some out') /\ event_probability n ev out = event_probability n ev out'.
Proof. exact c120_no_signalling. Qed.
Print Assumptions C120_no_signalling.
(** a Bell pair; then a noisy H and a CNOT are applied to qubit 1 and a third qubit; the outcome of qubit 0 is observed *)
Definition sg_first : list gate := [plain gH 0; gX (TInt 1) (IInt 0) None false].
Definition sg_more : list gate := [gH (TInt 1) no_control (Some [mkNoise AMPLITUDE_DAMPING (PFloat (1 / 3))]) false; gX (TInt 2) (IInt 1) None false].
Example sg_usable : Forall (usable 3 []) (sg_first ++ sg_more).
Proof.
  apply Forall_cons; [do 3 eexists; split; [eapply gm_fixed; simpl; eauto 10|apply cq_default|reflexivity|apply valid_one; lia]|].
  apply Forall_cons; [do 3 eexists; split; [eapply gm_fixed; simpl; eauto 10|apply (cq_ints [0])|reflexivity|ex_side]|].
  apply Forall_cons; [do 3 eexists; split; [eapply gm_fixed; simpl; eauto 10|apply cq_default|reflexivity|apply valid_one; lia]|].
  apply Forall_cons; [do 3 eexists; split; [eapply gm_fixed; simpl; eauto 10|apply (cq_ints [1])|reflexivity|ex_side]|apply Forall_nil].
Qed.
Example sg_run : runnable 3 [] (OpSequence (map OGate sg_first)) sg_first /\ runnable 3 [] (OpSequence (map OGate (sg_first ++ sg_more))) (sg_first ++ sg_more).
Proof.
  pose proof sg_usable as U. split; (split; [apply sequence_gates|split; [discriminate|]]).
  - apply Forall_app in U as [U _]. split; [exact U|split; repeat constructor].
  - split; [exact U|split; [repeat constructor|]]. do 2 (apply Forall_cons; [exact Logic.I|]). apply Forall_cons; [|apply Forall_cons; [exact Logic.I|apply Forall_nil]].
    split; [reflexivity|apply Forall_cons; [split; [exact Logic.I|unfold valid_parameter, is_prob; simpl; lra]|apply Forall_nil]].
Qed.
Definition bit0 (x : list nat) : bool := Nat.eqb (nth 0 x 0) 1.
Example C120_example : exists out out', run ex_world (OpSequence (map OGate sg_first)) (SDense (product_state [0; 0; 0])) [] = Ok (Some out) /\
    run ex_world (OpSequence (map OGate (sg_first ++ sg_more))) (SDense (product_state [0; 0; 0])) [] = Ok (Some out') /\ event_probability 3 bit0 out = event_probability 3 bit0 out'.
Proof.
  destruct sg_run as [R R']. apply (C120_no_signalling ex_world 3 [] (fun q => q = 0) _ _ sg_first sg_more); [exact ex_world_order|exact R|exact R'| | |].
  - assert (H : In [0; 0; 0] (bitstrings 3)) by (simpl; tauto). destruct (c72_product_thm 3 _ H) as (S & _). exact S.
  - intros g q [<-|[<-|[]]] (cs & C & Q) ->; apply ctrl_of_spec in C; subst cs; cbn in Q; destruct Q as [Q|Q]; try discriminate; try destruct Q as [Q|[]]; try discriminate; destruct Q.
  - intros x y _ _ E. unfold bit0. rewrite (E 0 eq_refl). reflexivity.
Qed.
