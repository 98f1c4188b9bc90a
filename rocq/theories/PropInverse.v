(** * C115: inverse circuits.

    The vocabulary is in Spec.v, GateSpec.v, PhysSpec.v, CtorSpec.v and InverseSpec.v.  Every theorem is followed by an example that
    meets its hypotheses. *)
From Coq Require Import String List Arith Bool ZArith Reals Lia Lra.
From Verif Require Import Cplx Py Ndarray OperatorUtils ApplyOperator Sparse Matrices Noise Gates Apply Composite Conversion Shots Gpsr Api
  Spec GateSpec PropSpec NoiseSpec ExpectSpec SampleSpec PhysSpec CtorSpec InverseSpec ExpectThm2 InverseThm Examples.
Import ListNotations.
Local Open Scope nat_scope.

(** running a circuit and then its inverse (the inverse gates in the reverse order) returns the initial state *)
Theorem C115_inverse_circuit_undoes : forall w n vals c gs gs' st, set_order (set_iter w) -> inverse_circuit vals gs gs' -> gs <> [] -> Forall (usable n vals) gs ->
    sequence_of c (gs ++ gs') -> state_of n st -> run w c st vals = Ok (Some st).
Proof. exact c115_undo. Qed.
Print Assumptions C115_inverse_circuit_undoes.
Definition ex_fwd : list gate := [gH (TInt 0) no_control None false; RX (PName "a") (TInt 1) (IInt 0) None false; gS (TInt 1) no_control None false; SWAP (TTup [0; 1]) (IInt 2) None false].
Definition ex_bwd : list gate := [SWAP (TTup [0; 1]) (IInt 2) None false; PHASE (PNum (- (PI / 2))) (TInt 1) no_control None false; RX (PName "b") (TInt 1) (IInt 0) None false; gH (TInt 0) no_control None false].
Definition ex_inv_vals (x : R) : values := [("a", VNum x); ("b", VNum (- x))]%string.
Example ex_inverse : forall x, inverse_circuit (ex_inv_vals x) ex_fwd ex_bwd /\ Forall (usable 3 (ex_inv_vals x)) ex_fwd /\ Forall dense_gate ex_fwd /\ Forall noiseless ex_fwd.
Proof.
  intro x. split; [|split; [|split]].
  - unfold inverse_circuit, ex_fwd, ex_bwd. cbn [rev app]. apply Forall2_cons; [apply ig_self; simpl; tauto|]. apply Forall2_cons; [apply ig_S|].
    apply Forall2_cons; [apply (ig_rotation _ RX _ _ x); [simpl; tauto|apply an_name; reflexivity|apply an_name; reflexivity]|].
    apply Forall2_cons; [apply ig_self; simpl; tauto|apply Forall2_nil].
  - unfold ex_fwd. apply Forall_cons; [do 3 eexists; split; [eapply gm_fixed; simpl; eauto 10|apply cq_default|reflexivity|apply valid_one; lia]|].
    apply Forall_cons; [do 3 eexists; split; [eapply gm_rotation; [reflexivity|reflexivity|reflexivity|eexists; split; [reflexivity|reflexivity]|simpl; tauto]|apply (cq_ints [0])|reflexivity|ex_side]|].
    apply Forall_cons; [do 3 eexists; split; [eapply gm_fixed; simpl; eauto 10|apply cq_default|reflexivity|apply valid_one; lia]|].
    apply Forall_cons; [do 3 eexists; split; [apply gm_SWAP; reflexivity|apply (cq_ints [2])|reflexivity|ex_side]|apply Forall_nil].
  - repeat constructor.
  - repeat constructor.
Qed.
Example C115_undo_example : forall x psi, is_state 3 psi ->
    run ex_world (OpSequence (map OGate (ex_fwd ++ ex_bwd))) (SDense psi) (ex_inv_vals x) = Ok (Some (SDense psi)).
Proof.
  intros x psi HS. destruct (ex_inverse x) as (I & U & _ & _).
  apply (C115_inverse_circuit_undoes ex_world 3 (ex_inv_vals x) _ ex_fwd ex_bwd); [apply ex_world_order|exact I|discriminate|exact U|apply sequence_gates|exact HS].
Qed.

(** anywhere in a circuit, noisy or not, a part followed by its inverse can be removed *)
Theorem C115_inverse_parts_cancel : forall w n vals c c' gs1 gs gs' gs2 st, set_order (set_iter w) -> inverse_circuit vals gs gs' -> Forall (usable n vals) gs ->
    sequence_of c (gs1 ++ (gs ++ gs') ++ gs2) -> runnable n vals c' (gs1 ++ gs2) -> state_of n st ->
    (exists out, run w c st vals = Ok (Some out) /\ run w c' st vals = Ok (Some out)) /\
    (forall k, fst (sample w st c vals k) = fst (sample w st c' vals k)) /\
    (flat_values vals -> forall obs mode shots key, expectation w st c obs vals mode shots key = expectation w st c' obs vals mode shots key).
Proof. exact c115_cancel. Qed.
Print Assumptions C115_inverse_parts_cancel.
Definition ex_noisy_gate : gate := gX (TInt 1) no_control (Some [mkNoise AMPLITUDE_DAMPING (PFloat (1 / 4))]) false.
Example C115_cancel_example : forall x psi obs mode shots key, is_state 3 psi ->
    expectation ex_world (SDense psi) (OpSequence (map OGate ([ex_noisy_gate] ++ (ex_fwd ++ ex_bwd) ++ [ex_noisy_gate]))) obs (ex_inv_vals x) mode shots key =
    expectation ex_world (SDense psi) (OpSequence (map OGate ([ex_noisy_gate] ++ [ex_noisy_gate]))) obs (ex_inv_vals x) mode shots key.
Proof.
  intros x psi obs mode shots key HS. destruct (ex_inverse x) as (I & U & _ & _).
  refine (proj2 (proj2 (C115_inverse_parts_cancel ex_world 3 (ex_inv_vals x) _ _ [ex_noisy_gate] ex_fwd ex_bwd [ex_noisy_gate] (SDense psi) ex_world_order I U _ _ HS)) _ obs mode shots key);
    [apply sequence_gates| |left; reflexivity].
  split; [apply sequence_gates|]. split; [discriminate|].
  assert (UG : usable 3 (ex_inv_vals x) ex_noisy_gate) by (do 3 eexists; split; [eapply gm_fixed; simpl; eauto 10|apply cq_default|reflexivity|apply valid_one; lia]).
  assert (NG : noise_ok ex_noisy_gate) by (split; [reflexivity|apply Forall_cons; [split; [exact Logic.I|unfold valid_parameter, is_prob; simpl; lra]|apply Forall_nil]]).
  repeat split; (apply Forall_cons; [|apply Forall_cons; [|apply Forall_nil]]); assumption || reflexivity.
Qed.

(** compute and uncompute: after one circuit and the inverse of another, the probability of the initial basis state is the fidelity
    of the two output states *)
Theorem C115_uncomputing_measures_the_fidelity : forall w n vals c1 c2 c gs1 gs2 gs2' psi, inverse_circuit vals gs2 gs2' ->
    Forall (usable n vals) gs1 -> Forall dense_gate gs1 -> Forall noiseless gs1 -> Forall (usable n vals) gs2 ->
    sequence_of c1 gs1 -> sequence_of c2 gs2 -> sequence_of c (gs1 ++ gs2') -> is_state n psi ->
    exists a b out, run w c1 (SDense psi) vals = Ok (Some (SDense a)) /\ run w c2 (SDense psi) vals = Ok (Some (SDense b)) /\
      run w c (SDense psi) vals = Ok (Some (SDense out)) /\
      inner_product n (amp psi) (amp out) = inner_product n (amp b) (amp a) /\
      forall x, In x (bitstrings n) -> psi = product_state x -> Cnorm2 (amp out x) = Cnorm2 (inner_product n (amp b) (amp a)).
Proof. exact c115_uncompute. Qed.
Print Assumptions C115_uncomputing_measures_the_fidelity.
Example C115_uncompute_example : forall x, exists a b out,
    run ex_world (OpSequence (map OGate ex_bwd)) (SDense (zero_state 3)) (ex_inv_vals x) = Ok (Some (SDense a)) /\
    run ex_world (OpSequence (map OGate ex_fwd)) (SDense (zero_state 3)) (ex_inv_vals x) = Ok (Some (SDense b)) /\
    run ex_world (OpSequence (map OGate (ex_bwd ++ ex_bwd))) (SDense (zero_state 3)) (ex_inv_vals x) = Ok (Some (SDense out)) /\
    Cnorm2 (amp out [0; 0; 0]) = Cnorm2 (inner_product 3 (amp b) (amp a)).
Proof.
  intro x. destruct (ex_inverse x) as (I & U & _ & _). destruct (inverse_all 3 (ex_inv_vals x) ex_fwd ex_bwd I U) as (U' & _ & _ & D' & _ & N').
  destruct (C115_uncomputing_measures_the_fidelity ex_world 3 (ex_inv_vals x) (OpSequence (map OGate ex_bwd)) (OpSequence (map OGate ex_fwd)) (OpSequence (map OGate (ex_bwd ++ ex_bwd)))
    ex_bwd ex_fwd ex_bwd (zero_state 3) I U' D' N' U (sequence_gates _) (sequence_gates _) (sequence_gates _)) as (a & b & out & Ea & Eb & Eo & _ & H); [split; reflexivity|].
  exists a, b, out. repeat (split; [assumption|]). apply H; [simpl; tauto|reflexivity].
Qed.
