(** * C128: control qubits, and qubits under diagonal gates, are only read.

    The vocabulary is in Spec.v, GateSpec.v, PropSpec.v, NoiseSpec.v, SampleSpec.v, HeisSpec.v, PhysSpec.v, FreqSpec.v, SignalSpec.v
    and ReadSpec.v.  Every theorem is followed by an example that meets its hypotheses. *)
From Coq Require Import String List Arith Bool ZArith Reals Lia Lra.
From Verif Require Import Cplx Py Ndarray OperatorUtils ApplyOperator Sparse Matrices Noise Gates Apply Composite Conversion Shots Gpsr Api
  Spec GateSpec PropSpec NoiseSpec SampleSpec ShotsSpec ExpectSpec GpsrSpec StructSpec PhysSpec HeisSpec FreqSpec SignalSpec ReadSpec AlgebraFacts StructThm3 SampleThm
  PhysThm VarThm GpsrFacts ReadThm Examples ShotsThm ExpectThm2 PropSignal.
Import ListNotations.
Local Open Scope nat_scope.

(** the joint distribution of the outcomes of qubits that the circuit only reads is the one of the input *)
Theorem C128_control_qubits_keep_their_distribution : forall w n vals (S : nat -> Prop) c gs st ev, set_order (set_iter w) -> runnable n vals c gs -> Forall (only_reads S) gs -> state_of n st -> event_on n S ev ->
    exists out, run w c st vals = Ok (Some out) /\ event_probability n ev out = event_probability n ev st.
Proof. exact c128_unchanged. Qed.
Print Assumptions C128_control_qubits_keep_their_distribution.
(** qubit 0 goes through S with phase-flip noise and then controls a noisy X on qubit 1; H on qubit 1 ends the circuit.  The input is 3/5 |00> + 4/5 |10>. *)
Definition rq_gates : list gate :=
  [gS (TInt 0) no_control (Some [mkNoise PHASEFLIP (PFloat (1 / 4)); mkNoise PHASE_DAMPING (PFloat (1 / 5))]) false;
   gX (TInt 1) (IInt 0) (Some [mkNoise BITFLIP (PFloat (1 / 8))]) false; plain gH 1].
Definition rq_state : arr := mkArr [2; 2] [RtoC (3 / 5); C0; RtoC (4 / 5); C0].
Definition rq_zero (q : nat) : Prop := q = 0.
Example rq_usable : Forall (usable 2 []) rq_gates.
Proof.
  apply Forall_cons; [do 3 eexists; split; [eapply gm_fixed; simpl; eauto 10|apply cq_default|reflexivity|apply valid_one; lia]|].
  apply Forall_cons; [do 3 eexists; split; [eapply gm_fixed; simpl; eauto 10|apply (cq_ints [0])|reflexivity|ex_side]|].
  apply Forall_cons; [do 3 eexists; split; [eapply gm_fixed; simpl; eauto 10|apply cq_default|reflexivity|apply valid_one; lia]|apply Forall_nil].
Qed.
Ltac rq_noise := split; [reflexivity|repeat (apply Forall_cons; [split; [exact Logic.I|unfold valid_parameter, is_prob; simpl; lra]|]); apply Forall_nil].
Example rq_run : runnable 2 [] (OpSequence (map OGate rq_gates)) rq_gates.
Proof.
  split; [apply sequence_gates|split; [discriminate|split; [exact rq_usable|split; [repeat constructor|]]]].
  apply Forall_cons; [rq_noise|]. apply Forall_cons; [rq_noise|]. apply Forall_cons; [exact Logic.I|apply Forall_nil].
Qed.
Example rq_reads : Forall (only_reads rq_zero) rq_gates.
Proof.
  apply Forall_cons; [right; split; [left; split; [reflexivity|simpl; tauto]|repeat constructor; (left; reflexivity) || (right; reflexivity)]|].
  apply Forall_cons; [left; intros q [<-|[]] E; discriminate E|]. apply Forall_cons; [left; intros q [<-|[]] E; discriminate E|apply Forall_nil].
Qed.
Example rq_event : event_on 2 rq_zero bit0.
Proof. intros x y _ _ E. unfold bit0. rewrite (E 0 eq_refl). reflexivity. Qed.
Example C128_unchanged_example : exists out, run ex_world (OpSequence (map OGate rq_gates)) (SDense rq_state) [] = Ok (Some out) /\ event_probability 2 bit0 out = (16 / 25)%R.
Proof.
  destruct (C128_control_qubits_keep_their_distribution ex_world 2 [] rq_zero _ rq_gates (SDense rq_state) bit0 ex_world_order rq_run rq_reads (Logic.conj eq_refl eq_refl) rq_event) as (out & E & P).
  exists out. split; [exact E|]. rewrite P. unfold event_probability, outcome_probability. lazy -[Rplus Rmult Ropp Rminus Rdiv Rinv IZR]. lra.
Qed.

(** the same from any point of a circuit on: gates that only read the qubits may be appended *)
Theorem C128_reading_a_qubit_later_changes_nothing : forall w n vals (S : nat -> Prop) c c' gs more st ev, set_order (set_iter w) -> runnable n vals c gs -> runnable n vals c' (gs ++ more) -> Forall (only_reads S) more ->
    state_of n st -> event_on n S ev ->
    exists out out', run w c st vals = Ok (Some out) /\ run w c' st vals = Ok (Some out') /\ event_probability n ev out' = event_probability n ev out.
Proof. exact c128_later. Qed.
Print Assumptions C128_reading_a_qubit_later_changes_nothing.
(** H on qubit 0 first *)
Example rq_long : runnable 2 [] (OpSequence (map OGate [plain gH 0])) [plain gH 0] /\ runnable 2 [] (OpSequence (map OGate ([plain gH 0] ++ rq_gates))) ([plain gH 0] ++ rq_gates).
Proof.
  assert (U : usable 2 [] (plain gH 0)) by (do 3 eexists; split; [eapply gm_fixed; simpl; eauto 10|apply cq_default|reflexivity|apply valid_one; lia]).
  destruct rq_run as (_ & _ & FU & FD & FN). split; (split; [apply sequence_gates|split; [discriminate|]]).
  - split; [apply Forall_cons; [exact U|apply Forall_nil]|split; repeat constructor].
  - split; [apply Forall_cons; [exact U|exact FU]|split; [apply Forall_cons; [reflexivity|exact FD]|apply Forall_cons; [exact Logic.I|exact FN]]].
Qed.
Example C128_later_example : exists out out', run ex_world (OpSequence (map OGate [plain gH 0])) (SDense rq_state) [] = Ok (Some out) /\
    run ex_world (OpSequence (map OGate ([plain gH 0] ++ rq_gates))) (SDense rq_state) [] = Ok (Some out') /\ event_probability 2 bit0 out' = event_probability 2 bit0 out.
Proof.
  destruct rq_long as [R R'].
  exact (C128_reading_a_qubit_later_changes_nothing ex_world 2 [] rq_zero _ _ [plain gH 0] rq_gates (SDense rq_state) bit0 ex_world_order R R' rq_reads (Logic.conj eq_refl eq_refl) rq_event).
Qed.

(** deferred measurement: measuring the qubits at the end, or first and then running the circuit on what remains, is the same *)
Theorem C128_measurements_may_be_deferred : forall w n vals (S : nat -> Prop) c gs st st' ev, set_order (set_iter w) -> runnable n vals c gs -> Forall (only_reads S) gs ->
    state_of n st -> state_of n st' -> event_on n S ev -> collapsed n ev st st' ->
    exists out out', run w c st vals = Ok (Some out) /\ run w c st' vals = Ok (Some out') /\ collapsed n ev out out' /\
      forall also, event_probability n also out' = event_probability n (fun x => ev x && also x) out.
Proof. exact c128_collapse. Qed.
Print Assumptions C128_measurements_may_be_deferred.
Definition rq_collapsed : arr := mkArr [2; 2] [C0; C0; RtoC (4 / 5); C0].
Example C128_deferred_example : exists out out', run ex_world (OpSequence (map OGate rq_gates)) (SDense rq_state) [] = Ok (Some out) /\
    run ex_world (OpSequence (map OGate rq_gates)) (SDense rq_collapsed) [] = Ok (Some out') /\ collapsed 2 bit0 out out' /\
    forall also, event_probability 2 also out' = event_probability 2 (fun x => bit0 x && also x) out.
Proof.
  refine (C128_measurements_may_be_deferred ex_world 2 [] rq_zero _ rq_gates (SDense rq_state) (SDense rq_collapsed) bit0 ex_world_order rq_run rq_reads (Logic.conj eq_refl eq_refl) (Logic.conj eq_refl eq_refl) rq_event _).
  intros x y Hx Hy. simpl in Hx, Hy. decompose [or] Hx; try contradiction; subst x; decompose [or] Hy; try contradiction; subst y; lazy -[Rplus Rmult Ropp Rminus Rdiv Rinv IZR]; apply C_ext; simpl; ring.
Qed.
