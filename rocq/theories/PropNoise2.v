(** * C100, C101: the algebra of noise channels.

    The vocabulary is in NoiseSpec.v, PhysSpec.v and NoiseLawSpec.v.  Every theorem is followed by an example that meets
    its hypotheses. *)
From Coq Require Import String List Arith Bool ZArith Reals Lia Lra Permutation Sorted.
From Verif Require Import Cplx Py Ndarray OperatorUtils ApplyOperator Sparse Matrices Noise Gates Apply Composite Api
  Spec GateSpec PropSpec NoiseSpec ExpectSpec SampleSpec GpsrSpec StructSpec PhysSpec NoiseLawSpec ApplyThm GateThm ExpectThm2 GpsrThm3 PhysThm8 NoiseLawThm Examples.
Import ListNotations.
Local Open Scope nat_scope.

(** C100: [l] may be replaced by [l'] anywhere in the noise tuple of any gate *)
Theorem C100_noise_laws : forall w n vals c c' gs1 g gs2 pre post l l' st,
    set_order (set_iter w) -> noise_law l l' ->
    runnable n vals c (gs1 ++ with_noise (pre ++ l ++ post) g :: gs2) -> sequence_of c' (gs1 ++ with_noise (pre ++ l' ++ post) g :: gs2) -> state_of n st ->
    runnable n vals c' (gs1 ++ with_noise (pre ++ l' ++ post) g :: gs2) /\
    (exists out, run w c st vals = Ok (Some out) /\ run w c' st vals = Ok (Some out)) /\
    (forall k, fst (sample w st c vals k) = fst (sample w st c' vals k)) /\
    (flat_values vals -> forall obs mode shots key, expectation w st c obs vals mode shots key = expectation w st c' obs vals mode shots key).
Proof. exact c100_noise_laws. Qed.
Print Assumptions C100_noise_laws.
Definition ex_law_gates (i j : list noise_inst) : list gate :=
  [gH (TInt 0) no_control None false; gX (TInt 1) (IInt 0) (Some ([phase_damping (1 / 4)] ++ (i ++ j) ++ [bitflip (1 / 8)])) false; gH (TInt 1) no_control None false].
Definition ex_law_circuit (i j : list noise_inst) : oper := OSeq (map OGate (ex_law_gates i j)).
Lemma ex_law_sequence : forall i j, sequence_of (ex_law_circuit i j) (ex_law_gates i j).
Proof.
  intros i j. unfold ex_law_circuit. replace (ex_law_gates i j) with (List.concat (map (fun g => [g]) (ex_law_gates i j))) at 2 by reflexivity. apply so_seq.
  repeat (apply Forall2_cons; [apply so_gate|]). apply Forall2_nil.
Qed.
Lemma ex_law_runnable : forall l, Forall (fun i => well_typed i /\ valid_parameter i) l -> runnable 2 [] (ex_law_circuit l []) (ex_law_gates l []).
Proof.
  intros l FL. split; [apply ex_law_sequence|]. split; [discriminate|]. split; [|split; [repeat constructor|]].
  - apply Forall_cons; [|apply Forall_cons; [|apply Forall_cons; [|apply Forall_nil]]]; do 3 eexists; (split; [eapply gm_fixed; simpl; eauto 10| |reflexivity|]).
    + apply cq_default.
    + apply valid_one; lia.
    + apply (cq_ints [0]).
    + split; [ex_nodup|]. repeat constructor; lia.
    + apply cq_default.
    + apply valid_one; lia.
  - apply Forall_cons; [exact Logic.I|apply Forall_cons; [|repeat constructor]]. unfold noise_ok. cbn [noise gX ex_law_gates target]. split; [reflexivity|].
    apply Forall_app. split; [|apply Forall_app; split; [rewrite app_nil_r; exact FL|]]; (apply Forall_cons; [split; [exact Logic.I|unfold valid_parameter, is_prob; simpl; lra]|apply Forall_nil]).
Qed.
Example C100_example : exists out,
    run ex_world (ex_law_circuit [depolarizing (1 / 2); depolarizing (1 / 4)] []) (SDense (basis [0; 1])) [] = Ok (Some out) /\
    run ex_world (ex_law_circuit [depolarizing (1 / 2 + 1 / 4 - 4 * (1 / 2) * (1 / 4) / 3)] []) (SDense (basis [0; 1])) [] = Ok (Some out).
Proof.
  apply (C100_noise_laws ex_world 2 [] _ (ex_law_circuit [depolarizing (1 / 2 + 1 / 4 - 4 * (1 / 2) * (1 / 4) / 3)] []) [gH (TInt 0) no_control None false] (gX (TInt 1) (IInt 0) None false) [gH (TInt 1) no_control None false]
           [phase_damping (1 / 4)] [bitflip (1 / 8)] [depolarizing (1 / 2); depolarizing (1 / 4)] [depolarizing (1 / 2 + 1 / 4 - 4 * (1 / 2) * (1 / 4) / 3)]).
  - exact ex_world_order.
  - apply nl_depolarizings.
  - apply (ex_law_runnable [depolarizing (1 / 2); depolarizing (1 / 4)]). repeat (apply Forall_cons; [split; [exact Logic.I|unfold valid_parameter, is_prob; simpl; lra]|]). apply Forall_nil.
  - apply ex_law_sequence.
  - split; reflexivity.
Qed.

(** C101: the expectation is the mean over the errors of the expectations of the circuits with the error inserted *)
Theorem C101_pauli_noise_is_random_pauli_errors : forall w n vals c gs1 g gs2 i q cs st l K mode key,
    set_order (set_iter w) -> flat_values vals -> pauli_type i -> target g = [q] ->
    runnable n vals c (gs1 ++ add_noise i g :: gs2) ->
    Forall2 (fun e c' => sequence_of c' (gs1 ++ g :: error_gates q (snd e) ++ gs2)) (error_weights i) cs ->
    state_of n st -> readable w n vals st (gs1 ++ add_noise i g :: gs2) l K -> exact_mode mode ->
    exists vs, Forall2 (fun c' v => expectation w st c' [l] vals mode 0 key = Ok [v]) cs vs /\
      expectation w st c [l] vals mode 0 key = Ok [weighted (error_weights i) vs].
Proof. exact c101_unravel. Qed.
Print Assumptions C101_pauli_noise_is_random_pauli_errors.
Definition ex_error_circuit (gs : list gate) : oper := OSeq (map OGate gs).
Lemma ex_error_sequence : forall gs, sequence_of (ex_error_circuit gs) gs.
Proof.
  intro gs. unfold ex_error_circuit. replace gs with (List.concat (map (fun g => [g]) gs)) at 2 by (induction gs as [|g gs IH]; [reflexivity|cbn; rewrite IH; reflexivity]). apply so_seq.
  induction gs as [|g gs IH]; [apply Forall2_nil|]. apply Forall2_cons; [apply so_gate|exact IH].
Qed.
Example C101_example : exists v0 vx : R,
    expectation ex_world (SDense (basis [0; 1]))
      (ex_error_circuit [gH (TInt 0) no_control None false; gX (TInt 1) (IInt 0) (Some [bitflip (1 / 3)]) false; gH (TInt 1) no_control None false]) [pauli_observable PZ 1] [] AD 0 0
      = Ok [((1 - 1 / 3) * v0 + (1 / 3 * vx + 0))%R] /\
    expectation ex_world (SDense (basis [0; 1]))
      (ex_error_circuit [gH (TInt 0) no_control None false; gX (TInt 1) (IInt 0) None false; gX (TInt 1) no_control None false; gH (TInt 1) no_control None false]) [pauli_observable PZ 1] [] AD 0 0 = Ok [vx].
Proof.
  destruct (C101_pauli_noise_is_random_pauli_errors ex_world 2 []
    (ex_error_circuit [gH (TInt 0) no_control None false; gX (TInt 1) (IInt 0) (Some [bitflip (1 / 3)]) false; gH (TInt 1) no_control None false])
    [gH (TInt 0) no_control None false] (gX (TInt 1) (IInt 0) None false) [gH (TInt 1) no_control None false] (bitflip (1 / 3)) 1
    [ex_error_circuit [gH (TInt 0) no_control None false; gX (TInt 1) (IInt 0) None false; gH (TInt 1) no_control None false];
     ex_error_circuit [gH (TInt 0) no_control None false; gX (TInt 1) (IInt 0) None false; gX (TInt 1) no_control None false; gH (TInt 1) no_control None false]]
    (SDense (basis [0; 1])) (pauli_observable PZ 1) (ksum [ctrl_kernel (pauli_op PZ) [] [1]]) AD 0) as (vs & F & E).
  - exact ex_world_order.
  - left; reflexivity.
  - constructor.
  - reflexivity.
  - split; [apply ex_error_sequence|]. split; [discriminate|]. split; [|split; [repeat constructor|]].
    + apply Forall_cons; [|apply Forall_cons; [|apply Forall_cons; [|apply Forall_nil]]]; do 3 eexists; (split; [eapply gm_fixed; simpl; eauto 10| |reflexivity|]).
      * apply cq_default.
      * apply valid_one; lia.
      * apply (cq_ints [0]).
      * split; [ex_nodup|]. repeat constructor; lia.
      * apply cq_default.
      * apply valid_one; lia.
    + apply Forall_cons; [exact Logic.I|apply Forall_cons; [|repeat constructor]]. split; [reflexivity|].
      apply Forall_cons; [split; [exact Logic.I|unfold valid_parameter, is_prob; simpl; lra]|apply Forall_nil].
  - apply Forall2_cons; [|apply Forall2_cons; [|apply Forall2_nil]]; apply ex_error_sequence.
  - split; reflexivity.
  - apply pauli_readable; [exact ex_world_order|lia].
  - constructor.
  - inversion F as [|? v0 ? vs1 E0 F1]; subst. inversion F1 as [|? vx ? vs2 E1 F2]; subst. inversion F2; subst. exists v0, vx. split; [exact E|exact E1].
Qed.
