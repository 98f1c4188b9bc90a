(** * C102, C103: circuit identities.

    The vocabulary is in GpsrSpec.v, PhysSpec.v and CircuitLawSpec.v.  Every theorem is followed by an example that meets
    its hypotheses. *)
From Coq Require Import String List Arith Bool ZArith Reals Lia Lra Permutation Sorted.
From Verif Require Import Cplx Py Ndarray OperatorUtils ApplyOperator Sparse Matrices Noise Gates Apply Composite Api
  Spec GateSpec PropSpec NoiseSpec ExpectSpec SampleSpec GpsrSpec StructSpec PhysSpec NoiseLawSpec CircuitLawSpec ApplyThm GateThm ExpectThm2 GpsrThm3 PhysThm8 CircuitLawThm CircuitLawThm2 Examples.
Import ListNotations.
Local Open Scope nat_scope.

(** C102: a part [l] of any circuit, noisy elsewhere or not, may be replaced by the gates [l'] that a textbook identity says
    are the same operation *)
Theorem C102_circuit_identities : forall w n vals c c' gs1 l l' gs2 st, set_order (set_iter w) -> same_circuit l l' ->
    runnable n vals c (gs1 ++ l ++ gs2) -> runnable n vals c' (gs1 ++ l' ++ gs2) -> state_of n st ->
    (exists out, run w c st vals = Ok (Some out) /\ run w c' st vals = Ok (Some out)) /\
    (forall k, fst (sample w st c vals k) = fst (sample w st c' vals k)) /\
    (flat_values vals -> forall obs mode shots key, expectation w st c obs vals mode shots key = expectation w st c' obs vals mode shots key).
Proof. exact c102_identities. Qed.
Print Assumptions C102_circuit_identities.
Ltac ex_gates := repeat (apply Forall_cons; [do 3 eexists; split; [first [eapply gm_fixed; simpl; eauto 10; fail|eapply gm_SWAP; reflexivity|eapply gm_rotation with (R_ := RZ_matrix); simpl; eauto; eexists; split; reflexivity|eapply gm_PHASE; simpl; eauto; eexists; split; reflexivity]
  |first [apply cq_default|apply (cq_ints [0])|apply (cq_ints [1])]|reflexivity|split; [ex_nodup|repeat constructor; lia]]|]); apply Forall_nil.
Definition ex_identity_circuit (gs : list gate) : oper := OSeq (map OGate gs).
Lemma ex_identity_sequence : forall gs, sequence_of (ex_identity_circuit gs) gs.
Proof.
  intro gs. unfold ex_identity_circuit. replace gs with (List.concat (map (fun g => [g]) gs)) at 2 by (induction gs as [|g gs IH]; [reflexivity|cbn; rewrite IH; reflexivity]). apply so_seq.
  induction gs as [|g gs IH]; [apply Forall2_nil|]. apply Forall2_cons; [apply so_gate|exact IH].
Qed.
Definition ex_noisy_H : gate := gH (TInt 0) no_control (Some [bitflip (1 / 3)]) false.
Lemma ex_identity_runnable : forall a, Forall (usable 2 []) (a ++ [Hg 1 no_control]) -> Forall dense_gate a -> Forall noiseless a ->
    runnable 2 [] (ex_identity_circuit ([ex_noisy_H] ++ a ++ [Hg 1 no_control])) ([ex_noisy_H] ++ a ++ [Hg 1 no_control]).
Proof.
  intros a U D N. split; [apply ex_identity_sequence|]. split; [discriminate|]. split; [|split].
  - apply Forall_cons; [|exact U]. do 3 eexists. split; [eapply gm_fixed; simpl; eauto 10|apply cq_default|reflexivity|apply valid_one; lia].
  - apply Forall_cons; [reflexivity|]. apply Forall_app. split; [exact D|repeat constructor].
  - apply Forall_cons; [split; [reflexivity|apply Forall_cons; [split; [exact Logic.I|unfold valid_parameter, is_prob; simpl; lra]|apply Forall_nil]]|].
    apply Forall_app. split; [|repeat constructor]. eapply Forall_impl; [|exact N]. intros g E. unfold noise_ok. rewrite E. exact Logic.I.
Qed.
(** a SWAP between a noisy gate and another one, written with three CNOTs *)
Example C102_example : exists out,
    run ex_world (ex_identity_circuit ([ex_noisy_H] ++ [SWAPg 0 1] ++ [Hg 1 no_control])) (SDense (basis [0; 1])) [] = Ok (Some out) /\
    run ex_world (ex_identity_circuit ([ex_noisy_H] ++ [Xg 1 (IInt 0); Xg 0 (IInt 1); Xg 1 (IInt 0)] ++ [Hg 1 no_control])) (SDense (basis [0; 1])) [] = Ok (Some out).
Proof.
  apply (C102_circuit_identities ex_world 2 [] _ _ [ex_noisy_H] [SWAPg 0 1] [Xg 1 (IInt 0); Xg 0 (IInt 1); Xg 1 (IInt 0)] [Hg 1 no_control]).
  - exact ex_world_order.
  - apply sc_SWAP.
  - apply ex_identity_runnable; [cbn [app]; ex_gates|repeat constructor|repeat constructor].
  - apply ex_identity_runnable; [cbn [app]; ex_gates|repeat constructor|repeat constructor].
  - split; reflexivity.
Qed.

(** C103: the same, up to a global phase, for identities that hold up to a phase: nothing that can be measured changes *)
Theorem C103_identities_up_to_phase : forall w n vals c c' gs1 l l' gs2 st, set_order (set_iter w) -> choice_contract w -> same_up_to_phase l l' ->
    runnable n vals c (gs1 ++ l ++ gs2) -> runnable n vals c' (gs1 ++ l' ++ gs2) -> state_of n st ->
    (exists out out', run w c st vals = Ok (Some out) /\ run w c' st vals = Ok (Some out') /\ equal_up_to_phase n out out') /\
    (forall k, fst (sample w st c vals k) = fst (sample w st c' vals k)) /\
    (flat_values vals -> forall obs Ks mode key, obs <> [] -> Forall2 (readable w n vals st (gs1 ++ l ++ gs2)) obs Ks -> exact_mode mode ->
      exists v, expectation w st c obs vals mode 0 key = Ok v /\ expectation w st c' obs vals mode 0 key = Ok v).
Proof. exact c103_phase. Qed.
Print Assumptions C103_identities_up_to_phase.
Example C103_example : forall k,
    fst (sample draw_world (SDense (basis [0; 1])) (ex_identity_circuit ([ex_noisy_H] ++ [RZg 1 0 no_control] ++ [Hg 1 no_control])) [] k) =
    fst (sample draw_world (SDense (basis [0; 1])) (ex_identity_circuit ([ex_noisy_H] ++ [Pg 1 0 no_control] ++ [Hg 1 no_control])) [] k).
Proof.
  apply (C103_identities_up_to_phase draw_world 2 [] _ _ [ex_noisy_H] [RZg 1 0 no_control] [Pg 1 0 no_control] [Hg 1 no_control]).
  - exact draw_world_order.
  - exact draw_world_choice.
  - apply sp_P.
  - apply ex_identity_runnable; [cbn [app]; ex_gates|repeat constructor|repeat constructor].
  - apply ex_identity_runnable; [cbn [app]; ex_gates|repeat constructor|repeat constructor].
  - split; reflexivity.
Qed.
