(** * C118: small changes of the angles and small noise change expectations little.

    The vocabulary is in Spec.v, GateSpec.v, NoiseSpec.v, PhysSpec.v, ExpectSpec.v, GpsrSpec.v, TrigSpec.v and StableSpec.v.  Every theorem is followed by an
    example that meets its hypotheses. *)
From Coq Require Import String List Arith Bool ZArith Reals Lia Lra.
From Verif Require Import Cplx Py Ndarray OperatorUtils ApplyOperator Sparse Matrices Noise Gates Apply Composite Conversion Shots Gpsr Api
  Spec GateSpec PropSpec NoiseSpec SampleSpec ShotsSpec ExpectSpec GpsrSpec StructSpec PhysSpec TrigSpec CtorSpec PauliSpec HeisSpec StableSpec StructThm3 SampleThm ExpectThm2 GpsrFacts PhysThm PauliThm TrigThm StableThm Examples.
Import ListNotations.
Local Open Scope nat_scope.

(** changing the values of the parameters changes an expectation by at most the size of the observable times the change of the angles, summed over the gates that use them *)
Theorem C118_small_changes_of_angles : forall w n vals vals' c gs st l K bs mode key, set_order (set_iter w) -> flat_values vals -> flat_values vals' -> runnable n vals c gs -> runnable n vals' c gs ->
    state_of n st -> physical n st -> readable w n vals st gs l K -> readable w n vals' st gs l K -> Forall2 (magnitude n vals) l bs -> exact_mode mode ->
    exists e e', expectation w st c [l] vals mode 0 key = Ok [e] /\ expectation w st c [l] vals' mode 0 key = Ok [e'] /\ (Rabs (e - e') <= total bs * total_change gs vals vals')%R.
Proof. exact c118_angles. Qed.
Print Assumptions C118_small_changes_of_angles.
(** two rotations by "a" and a noisy CNOT, on the state |00>; the observable Z(1) *)
Definition sb_gates : list gate :=
  [plain (RX (PName "a")) 0; gX (TInt 1) (IInt 0) (Some [mkNoise AMPLITUDE_DAMPING (PFloat (1 / 8)); mkNoise DEPOLARIZING (PFloat (1 / 10))]) false; plain (RY (PName "a")) 1].
Definition sb_vals (x : R) : values := [("a", VNum x)]%string.
Example sb_usable : forall x, Forall (usable 2 (sb_vals x)) sb_gates.
Proof.
  intro x. apply Forall_cons; [do 3 eexists; split; [eapply gm_rotation; [reflexivity|reflexivity|reflexivity|eexists; split; [reflexivity|reflexivity]|simpl; tauto]|apply cq_default|reflexivity|apply valid_one; lia]|].
  apply Forall_cons; [do 3 eexists; split; [eapply gm_fixed; simpl; eauto 10|apply (cq_ints [0])|reflexivity|ex_side]|].
  apply Forall_cons; [do 3 eexists; split; [eapply gm_rotation; [reflexivity|reflexivity|reflexivity|eexists; split; [reflexivity|reflexivity]|simpl; tauto]|apply cq_default|reflexivity|apply valid_one; lia]|apply Forall_nil].
Qed.
Example sb_run : forall x, runnable 2 (sb_vals x) (OpSequence (map OGate sb_gates)) sb_gates.
Proof.
  intro x. split; [apply sequence_gates|split; [discriminate|split; [apply sb_usable|split; [repeat constructor|]]]].
  apply Forall_cons; [exact Logic.I|]. apply Forall_cons; [|apply Forall_cons; [exact Logic.I|apply Forall_nil]].
  split; [reflexivity|]. apply Forall_cons; [split; [exact Logic.I|unfold valid_parameter, is_prob; simpl; lra]|]. apply Forall_cons; [split; [exact Logic.I|unfold valid_parameter, is_prob; simpl; lra]|apply Forall_nil].
Qed.
Definition sb_state : state := SDense (product_state [0; 0]).
Example sb_state_ok : state_of 2 sb_state /\ physical 2 sb_state.
Proof.
  assert (H : In [0; 0] (bitstrings 2)) by (simpl; tauto). destruct (c72_product_thm 2 _ H) as (S & V & W & _). split; [exact S|exact W].
Qed.
Example sb_readable : forall x, readable inc_world 2 (sb_vals x) sb_state sb_gates [letter_gate LZ 1] (ksum [lop (LZ, 1)]).
Proof.
  intro x. assert (O : observable_on inc_world 2 (sb_vals x) false [letter_gate LZ 1] (ksum [lop (LZ, 1)])).
  { exists [lop (LZ, 1)]. split; [discriminate|split; [|reflexivity]]. constructor; [apply letter_denotes; lia|constructor]. }
  split; [exists false; exact O|]. intros _. split; [exact O|]. intros s E. assert (E' : s = [1]) by (cbv in E; congruence). subst s. repeat constructor.
Qed.
Example sb_size : forall x, Forall2 (magnitude 2 (sb_vals x)) [letter_gate LZ 1] [1%R].
Proof.
  intro x. constructor; [|constructor]. apply (mag_seq _ _ _ [plain gZ 1]); [apply so_gate| |repeat constructor].
  apply Forall_cons; [do 3 eexists; split; [eapply gm_fixed; simpl; eauto 10|apply cq_default|reflexivity|apply valid_one; lia]|apply Forall_nil].
Qed.
Example C118_example : forall x y, exists e e',
    expectation inc_world sb_state (OpSequence (map OGate sb_gates)) [[letter_gate LZ 1]] (sb_vals x) AD 0 0 = Ok [e] /\
    expectation inc_world sb_state (OpSequence (map OGate sb_gates)) [[letter_gate LZ 1]] (sb_vals y) AD 0 0 = Ok [e'] /\ (Rabs (e - e') <= 2 * Rabs (x - y))%R.
Proof.
  intros x y. destruct sb_state_ok as [S P].
  destruct (C118_small_changes_of_angles inc_world 2 (sb_vals x) (sb_vals y) _ sb_gates sb_state [letter_gate LZ 1] _ [1%R] AD 0 inc_world_order (or_introl eq_refl) (or_introl eq_refl) (sb_run x) (sb_run y) S P (sb_readable x) (sb_readable y) (sb_size x) exact_AD)
    as (e & e' & E & E' & B).
  exists e, e'. split; [exact E|split; [exact E'|]]. unfold total_change, total in B. cbn in B. unfold number in B. cbn in B. lra.
Qed.

(** no derivative is larger than the number of gates that use the parameter, times the size of the observable *)
Theorem C118_gradients_are_bounded : forall w n vals name c gs st l K bs mode key d, set_order (set_iter w) -> flat_values vals -> runnable n vals c gs ->
    state_of n st -> physical n st -> In name (map fst vals) -> (forall t, readable w n (at_value vals name t) st gs l K) -> (forall t, Forall2 (magnitude n (at_value vals name t)) l bs) -> exact_mode mode ->
    gradient_at (fun v => expectation w st c [l] v mode 0 key) vals name [d] -> (Rabs d <= INR (uses gs name) * total bs)%R.
Proof. exact c118_gradient. Qed.
Print Assumptions C118_gradients_are_bounded.
Example C118_gradient_example : forall x d, gradient_at (fun v => expectation inc_world sb_state (OpSequence (map OGate sb_gates)) [[letter_gate LZ 1]] v AD 0 0) (sb_vals x) "a" [d] -> (Rabs d <= 2)%R.
Proof.
  intros x d G. destruct sb_state_ok as [S P].
  pose proof (C118_gradients_are_bounded inc_world 2 (sb_vals x) "a" _ sb_gates sb_state [letter_gate LZ 1] _ [1%R] AD 0 d inc_world_order (or_introl eq_refl) (sb_run x) S P (or_introl eq_refl)
    (fun t => sb_readable t) (fun t => sb_size t) exact_AD G) as B. unfold total, uses in B. cbn in B. lra.
Qed.

(** noise changes an expectation by at most twice the size of the observable times the sum of the error probabilities *)
Theorem C118_small_noise : forall w n vals c c' gs st l K bs mode key, set_order (set_iter w) -> flat_values vals -> runnable n vals c gs -> sequence_of c' (map without_noise gs) ->
    state_of n st -> physical n st -> readable w n vals st gs l K -> Forall2 (magnitude n vals) l bs -> exact_mode mode ->
    exists e e', expectation w st c [l] vals mode 0 key = Ok [e] /\ expectation w st c' [l] vals mode 0 key = Ok [e'] /\ (Rabs (e - e') <= 2 * total bs * total_error gs)%R.
Proof. exact c118_noise. Qed.
Print Assumptions C118_small_noise.
Example C118_noise_example : forall x, exists e e',
    expectation inc_world sb_state (OpSequence (map OGate sb_gates)) [[letter_gate LZ 1]] (sb_vals x) AD 0 0 = Ok [e] /\
    expectation inc_world sb_state (OpSequence (map OGate [plain (RX (PName "a")) 0; gX (TInt 1) (IInt 0) None false; plain (RY (PName "a")) 1])) [[letter_gate LZ 1]] (sb_vals x) AD 0 0 = Ok [e'] /\
    (Rabs (e - e') <= 2 * (1 / 8 + 1 / 10))%R.
Proof.
  intro x. destruct sb_state_ok as [S P].
  destruct (C118_small_noise inc_world 2 (sb_vals x) _ (OpSequence (map OGate [plain (RX (PName "a")) 0; gX (TInt 1) (IInt 0) None false; plain (RY (PName "a")) 1])) sb_gates sb_state
    [letter_gate LZ 1] _ [1%R] AD 0 inc_world_order (or_introl eq_refl) (sb_run x) (sequence_gates _) S P (sb_readable x) (sb_size x) exact_AD) as (e & e' & E & E' & B).
  exists e, e'. split; [exact E|split; [exact E'|]]. unfold total_error, total, error_rate in B. cbn in B. lra.
Qed.
