(** * C116: gates can be moved from the end of the circuit into the observable.

    The vocabulary is in Spec.v, GateSpec.v, PhysSpec.v, ExpectSpec.v, GpsrSpec.v, PauliSpec.v and HeisSpec.v.  Every theorem is followed by an example that
    meets its hypotheses. *)
From Coq Require Import String List Arith Bool ZArith Reals Lia Lra.
From Verif Require Import Cplx Py Ndarray OperatorUtils ApplyOperator Sparse Matrices Noise Gates Apply Composite Conversion Shots Gpsr Api
  Spec GateSpec PropSpec NoiseSpec SampleSpec ExpectSpec GpsrSpec StructSpec PhysSpec CtorSpec PauliSpec HeisSpec ExpectThm2 GpsrFacts PauliThm HeisThm Examples.
Import ListNotations.
Local Open Scope nat_scope.

(** measuring after the gates [gs] is measuring the moved observables before them *)
Theorem C116_gates_move_into_the_observable : forall w n vals c c' gs1 gs st obs obs' mode key, set_order (set_iter w) -> flat_values vals -> runnable n vals c (gs1 ++ gs) -> Forall noiseless gs ->
    runnable n vals c' gs1 -> state_of n st -> obs <> [] -> Forall (fun l => exists K, readable w n vals st (gs1 ++ gs) l K) obs ->
    Forall2 (moved_all vals gs) obs obs' -> (mixes st gs1 -> Forall (increasing_support w) obs') -> exact_mode mode ->
    exists v, expectation w st c obs vals mode 0 key = Ok v /\ expectation w st c' obs' vals mode 0 key = Ok v.
Proof. exact c116_heisenberg. Qed.
Print Assumptions C116_gates_move_into_the_observable.
(** a noisy circuit on three qubits that ends with H(0), CNOT(0, 1) and RX(a) on qubit 1; the observables Z(1) and X(0) *)
Definition hs_first : list gate := [gX (TInt 2) no_control (Some [mkNoise BITFLIP (PFloat (1 / 4))]) false; RY (PName "a") (TInt 0) (IInt 2) None false].
Definition hs_last : list gate := [plain gH 0; gX (TInt 1) (IInt 0) None false; plain (RX (PName "a")) 1].
Definition hs_vals (x : R) : values := [("a", VNum x)]%string.
Definition hs_after : list (list oper) := [[letter_gate LZ 1]; [letter_gate LX 0]].
Definition hs_before (x : R) : list (list oper) :=
  [[OAdd [OScale [OpSequence [letter_gate LX 0; letter_gate LZ 1]] (PNum (cos x)); OScale [OpSequence [letter_gate LX 0; letter_gate LY 1]] (PNum (sin x))]];
   [OpSequence [letter_gate LZ 0; letter_gate LX 1]]].
Example hs_moved : forall x, Forall2 (moved_all (hs_vals x) hs_last) hs_after (hs_before x).
Proof.
  intro x. unfold hs_last, hs_after, hs_before.
  assert (AX : angle_is (hs_vals x) (PName "a") x) by (apply an_name; reflexivity).
  assert (D : forall P, moved (hs_vals x) (plain gH 0) (letter_gate P 1) (letter_gate P 1)).
  { intro P. apply mv_other. intros h q I (cs & C & Q) (cs' & C' & Q'). destruct P; cbn in I; destruct I as [<-|[]]; apply ctrl_of_spec in C; apply ctrl_of_spec in C'; subst cs cs'; cbn in Q, Q'; destruct Q as [Q|[]], Q' as [Q'|[]]; congruence. }
  constructor; [|constructor; [|constructor]].
  - apply (ma_last _ [plain gH 0; gX (TInt 1) (IInt 0) None false] (plain (RX (PName "a")) 1) _ [mixture (cos x) (letter_gate LZ 1) (sin x) (letter_gate LY 1)]).
    { constructor; [|constructor]. apply (mv_rotation _ _ 1 (PName "a") x); [exact AX|simpl; tauto]. }
    apply (ma_last _ [plain gH 0] _ _ [mixture (cos x) (two_letters LZ 0 LZ 1) (sin x) (two_letters LZ 0 LY 1)]).
    { constructor; [|constructor]. apply mv_add. constructor; [|constructor; [|constructor]]; (apply mv_scale; constructor; [|constructor]); apply (mv_two _ _ 0 1); simpl; tauto. }
    eapply (ma_last _ []); [|apply ma_nil]. constructor; [|constructor]. apply mv_add.
    constructor; [|constructor; [|constructor]]; (apply mv_scale; constructor; [|constructor]); apply mv_sequence; (constructor; [apply (mv_one _ _ 0); simpl; tauto|constructor; [apply D|constructor]]).
  - apply (ma_last _ [plain gH 0; gX (TInt 1) (IInt 0) None false] (plain (RX (PName "a")) 1) _ [letter_gate LX 0]).
    { constructor; [|constructor]. apply mv_other. intros h q I (cs & C & Q) (cs' & C' & Q'). cbn in I; destruct I as [<-|[]]; apply ctrl_of_spec in C; apply ctrl_of_spec in C'; subst cs cs'; cbn in Q, Q'; destruct Q as [Q|[]], Q' as [Q'|[]]; congruence. }
    apply (ma_last _ [plain gH 0] _ _ [two_letters LX 0 LX 1]).
    { constructor; [|constructor]. apply (mv_two _ _ 0 1); simpl; tauto. }
    eapply (ma_last _ []); [|apply ma_nil]. constructor; [|constructor]. apply mv_sequence. constructor; [apply (mv_one _ _ 0); simpl; tauto|constructor; [apply D|constructor]].
Qed.
Example hs_usable : forall x, Forall (usable 3 (hs_vals x)) hs_first /\ Forall (usable 3 (hs_vals x)) hs_last.
Proof.
  intro x. split.
  - apply Forall_cons; [do 3 eexists; split; [eapply gm_fixed; simpl; eauto 10|apply cq_default|reflexivity|apply valid_one; lia]|].
    apply Forall_cons; [do 3 eexists; split; [eapply gm_rotation; [reflexivity|reflexivity|reflexivity|eexists; split; [reflexivity|reflexivity]|simpl; tauto]|apply (cq_ints [2])|reflexivity|ex_side]|apply Forall_nil].
  - apply Forall_cons; [do 3 eexists; split; [eapply gm_fixed; simpl; eauto 10|apply cq_default|reflexivity|apply valid_one; lia]|].
    apply Forall_cons; [do 3 eexists; split; [eapply gm_fixed; simpl; eauto 10|apply (cq_ints [0])|reflexivity|ex_side]|].
    apply Forall_cons; [do 3 eexists; split; [eapply gm_rotation; [reflexivity|reflexivity|reflexivity|eexists; split; [reflexivity|reflexivity]|simpl; tauto]|apply cq_default|reflexivity|apply valid_one; lia]|apply Forall_nil].
Qed.
Example hs_noise : Forall noise_ok hs_first.
Proof. apply Forall_cons; [split; [reflexivity|apply Forall_cons; [split; [exact Logic.I|unfold valid_parameter, is_prob; simpl; lra]|apply Forall_nil]]|apply Forall_cons; [exact Logic.I|apply Forall_nil]]. Qed.
Example hs_run : forall x, runnable 3 (hs_vals x) (OpSequence (map OGate hs_first)) hs_first /\
    runnable 3 (hs_vals x) (OpSequence (map OGate (hs_first ++ hs_last))) (hs_first ++ hs_last).
Proof.
  intro x. destruct (hs_usable x) as [U1 U2]. split; (split; [apply sequence_gates|split; [discriminate|]]).
  - split; [exact U1|split; [repeat constructor|exact hs_noise]].
  - split; [apply Forall_app; split; assumption|split; [repeat constructor|]]. apply Forall_app. split; [exact hs_noise|]. repeat (apply Forall_cons; [exact Logic.I|]). apply Forall_nil.
Qed.
Example hs_sorted : forall x, Forall (increasing_support inc_world) (hs_before x).
Proof.
  intro x. apply Forall_cons; [|apply Forall_cons; [|apply Forall_nil]]; intros s E; (assert (E' : s = [0; 1]) by (cbv in E; congruence); subst s; repeat (constructor; [|repeat constructor; lia]); constructor).
Qed.
Example C116_example : forall x psi key, is_state 3 psi -> exists v,
    expectation inc_world (SDense psi) (OpSequence (map OGate (hs_first ++ hs_last))) hs_after (hs_vals x) AD 0 key = Ok v /\
    expectation inc_world (SDense psi) (OpSequence (map OGate hs_first)) (hs_before x) (hs_vals x) AD 0 key = Ok v.
Proof.
  intros x psi key HS. destruct (hs_run x) as [R1 R2].
  apply (C116_gates_move_into_the_observable inc_world 3 (hs_vals x) _ _ hs_first hs_last (SDense psi) hs_after (hs_before x) AD key);
    [exact inc_world_order|left; reflexivity|exact R2|repeat constructor|exact R1|exact HS|discriminate| |apply hs_moved|intros _; apply hs_sorted|constructor].
  assert (R : forall P q, q < 3 -> exists K, readable inc_world 3 (hs_vals x) (SDense psi) (hs_first ++ hs_last) [letter_gate P q] K).
  { intros P q Hq. exists (ksum [lop (P, q)]). assert (O : observable_on inc_world 3 (hs_vals x) false [letter_gate P q] (ksum [lop (P, q)])).
    { exists [lop (P, q)]. split; [discriminate|split; [|reflexivity]]. constructor; [apply letter_denotes; exact Hq|constructor]. }
    split; [exists false; exact O|]. intros _. split; [exact O|]. intros s E. assert (E' : s = [q]) by (destruct P; cbv in E; congruence). subst s. repeat constructor. }
  apply Forall_cons; [apply R; lia|apply Forall_cons; [apply R; lia|apply Forall_nil]].
Qed.

(** a Pauli string can be measured by sampling: after H on the qubits with an X and S^-1, H on those with a Y, the mean of the
    parity of the outcomes on its qubits is the mean of the string *)
Theorem C116_pauli_strings_are_measured_by_parities : forall w n vals c c' gs s st, set_order (set_iter w) -> runnable n vals c gs -> runnable n vals c' (gs ++ basis_change s) -> state_of n st -> string_ok n s ->
    exists out out', run w c st vals = Ok (Some out) /\ run w c' st vals = Ok (Some out') /\
      mean n (string_matrix n s) out = rsum (bitstrings n) (fun x => parity s x * outcome_probability out' x)%R.
Proof. exact c116_parity. Qed.
Print Assumptions C116_pauli_strings_are_measured_by_parities.
Example C116_parity_example : forall x psi, is_state 3 psi -> exists out out',
    run inc_world (OpSequence (map OGate hs_first)) (SDense psi) (hs_vals x) = Ok (Some out) /\
    run inc_world (OpSequence (map OGate (hs_first ++ [plain (PHASE (PNum (- (PI / 2)))) 2; plain gH 2; plain gH 0]))) (SDense psi) (hs_vals x) = Ok (Some out') /\
    mean 3 (string_matrix 3 [(LY, 2); (LX, 0); (LZ, 1)]) out = rsum (bitstrings 3) (fun y => parity [(LY, 2%nat); (LX, 0%nat); (LZ, 1%nat)] y * outcome_probability out' y)%R.
Proof.
  intros x psi HS. destruct (hs_run x) as [R1 _]. destruct (hs_usable x) as [U1 _].
  apply (C116_pauli_strings_are_measured_by_parities inc_world 3 (hs_vals x) (OpSequence (map OGate hs_first)) _ hs_first [(LY, 2); (LX, 0); (LZ, 1)] (SDense psi));
    [exact inc_world_order|exact R1| |exact HS|split; [discriminate|split; [cbn [map snd]; repeat constructor; simpl; lia|cbn [map snd]; repeat (apply Forall_cons; [lia|]); apply Forall_nil]]].
  split; [apply sequence_gates|split; [discriminate|split; [|split; [repeat constructor|]]]].
  - apply Forall_app. split; [exact U1|]. cbn [basis_change flat_map to_letter fst snd app].
    apply Forall_cons; [exists (PHASE_matrix (- (PI / 2) + 0)), [], [2]; split; [apply gm_PHASE; [reflexivity|reflexivity|eexists; split; reflexivity]|apply cq_default|reflexivity|apply valid_one; lia]|].
    repeat (apply Forall_cons; [do 3 eexists; split; [eapply gm_fixed; simpl; eauto 10|apply cq_default|reflexivity|apply valid_one; lia]|]). apply Forall_nil.
  - apply Forall_app. split; [exact hs_noise|]. repeat (apply Forall_cons; [exact Logic.I|]). apply Forall_nil.
Qed.
