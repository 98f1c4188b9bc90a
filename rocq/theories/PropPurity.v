(** * C130: overlaps and purity.

    The vocabulary is in Spec.v, GateSpec.v, NoiseSpec.v, SampleSpec.v, ShotsSpec.v, PhysSpec.v and PuritySpec.v.  Every theorem is followed by an example that meets its hypotheses. *)
From Coq Require Import String List Arith Bool ZArith Reals Lia Lra.
From Verif Require Import Cplx Py Ndarray OperatorUtils ApplyOperator Sparse Matrices Noise Gates Apply Composite Conversion Shots Gpsr Api
  Spec GateSpec PropSpec NoiseSpec SampleSpec ShotsSpec ExpectSpec GpsrSpec StructSpec PhysSpec VarSpec HeisSpec FreqSpec NoiseLawSpec PuritySpec SpecFacts GpsrFacts AlgebraFacts StructThm3 SampleThm ExpectThm2
  PhysThm NoiseLawThm PurityThm PropContract Examples ShotsThm.
Import ListNotations.
Local Open Scope nat_scope.

(** noiseless programs keep tr(rho sigma), in particular the purity *)
Theorem C130_noiseless_circuits_preserve_overlaps : forall w n vals c gs st st', set_order (set_iter w) -> runnable n vals c gs -> Forall noiseless gs -> state_of n st -> state_of n st' ->
    exists out out', run w c st vals = Ok (Some out) /\ run w c st' vals = Ok (Some out') /\ overlap_trace n out out' = overlap_trace n st st'.
Proof. exact c130_overlap. Qed.
Print Assumptions C130_noiseless_circuits_preserve_overlaps.
Definition pu_gates (ns : option (list noise_inst)) : list gate := [plain gH 0; gX (TInt 1) (IInt 0) ns false].
Example pu_run : forall ns, (forall l, ns = Some l -> Forall (fun i => well_typed i /\ valid_parameter i) l) -> runnable 2 [] (OpSequence (map OGate (pu_gates ns))) (pu_gates ns).
Proof.
  intros ns H. split; [apply sequence_gates|split; [discriminate|split; [|split; [repeat constructor|]]]].
  - apply Forall_cons; [do 3 eexists; split; [eapply gm_fixed; simpl; eauto 10|apply cq_default|reflexivity|apply valid_one; lia]|].
    apply Forall_cons; [do 3 eexists; split; [eapply gm_fixed; simpl; eauto 10|apply (cq_ints [0])|reflexivity|ex_side]|apply Forall_nil].
  - apply Forall_cons; [exact Logic.I|]. apply Forall_cons; [|apply Forall_nil]. unfold noise_ok. cbn [noise gX]. destruct ns as [l|]; [split; [reflexivity|apply H; reflexivity]|exact Logic.I].
Qed.
Example C130_overlap_example : exists out out', run ex_world (OpSequence (map OGate (pu_gates None))) (SDense ct_zero) [] = Ok (Some out) /\
    run ex_world (OpSequence (map OGate (pu_gates None))) (SDense ct_tilted) [] = Ok (Some out') /\ overlap_trace 2 out out' = RtoC (576 / 625).
Proof.
  destruct ct_states as (S & S' & _). destruct (C130_noiseless_circuits_preserve_overlaps ex_world 2 [] _ (pu_gates None) _ _ ex_world_order (pu_run None ltac:(discriminate)) ltac:(repeat constructor) S S') as (out & out' & E & E' & O).
  exists out, out'. split; [exact E|split; [exact E'|]]. rewrite O. apply C_ext; lazy -[Rplus Rmult Ropp Rminus Rdiv Rinv IZR]; lra.
Qed.

(** for state vectors tr(rho sigma) is the fidelity *)
Theorem C130_overlap_of_vectors_is_the_fidelity : forall n a b, overlap_trace n (SDense a) (SDense b) = RtoC (Cnorm2 (inner_product n (amp a) (amp b))).
Proof. exact c130_pure. Qed.
Print Assumptions C130_overlap_of_vectors_is_the_fidelity.
Example C130_pure_example : purity 2 (SDense ct_tilted) = 1%R.
Proof. unfold purity. rewrite C130_overlap_of_vectors_is_the_fidelity. lazy -[Rplus Rmult Ropp Rminus Rdiv Rinv IZR]; lra. Qed.

(** noise without (generalized) amplitude damping never makes a state purer *)
Theorem C130_mixing_noise_does_not_purify : forall w n vals c gs st, set_order (set_iter w) -> runnable n vals c gs -> Forall mixing_noise gs -> state_of n st -> physical n st ->
    exists out, run w c st vals = Ok (Some out) /\ (purity n out <= purity n st)%R.
Proof. exact c130_purity. Qed.
Print Assumptions C130_mixing_noise_does_not_purify.
Definition pu_noise : list noise_inst := [bitflip (1 / 8); phase_damping (1 / 3); depolarizing (1 / 2); pauli_channel (1 / 4) 0 (1 / 4)].
Example pu_noise_ok : forall l, Some pu_noise = Some l -> Forall (fun i => well_typed i /\ valid_parameter i) l.
Proof.
  intros l E. injection E as <-. unfold pu_noise. repeat (apply Forall_cons; [split; [cbn; try lia; exact Logic.I|]|]); try apply Forall_nil; unfold valid_parameter, is_prob; cbn [ntype error_probability bitflip phase_damping depolarizing pauli_channel fold_right]; try lra.
  split; [repeat (apply Forall_cons; [unfold is_prob; lra|]); apply Forall_nil|lra].
Qed.
Example C130_purity_example : exists out, run ex_world (OpSequence (map OGate (pu_gates (Some pu_noise)))) (SDense ct_tilted) [] = Ok (Some out) /\ (purity 2 out <= purity 2 (SDense ct_tilted))%R.
Proof.
  destruct ct_states as (_ & S' & _ & P'). apply (C130_mixing_noise_does_not_purify ex_world 2 [] _ (pu_gates (Some pu_noise)) _ ex_world_order (pu_run (Some pu_noise) pu_noise_ok)); [|exact S'|exact P'].
  apply Forall_cons; [exact Logic.I|]. apply Forall_cons; [|apply Forall_nil]. unfold mixing_noise. cbn [noise gX]. repeat constructor.
Qed.

(** the purity of any output is between 2^-n and 1, whatever the noise *)
Theorem C130_purity_is_between : forall w n vals c gs st, set_order (set_iter w) -> runnable n vals c gs -> state_of n st -> physical n st ->
    (/ 2 ^ n <= purity n st <= 1)%R /\ exists out, run w c st vals = Ok (Some out) /\ (/ 2 ^ n <= purity n out <= 1)%R.
Proof. exact c130_bounds. Qed.
Print Assumptions C130_purity_is_between.
Example C130_bounds_example : exists out, run ex_world (OpSequence (map OGate ct_gates)) (SDense ct_tilted) [] = Ok (Some out) /\ (/ 2 ^ 2 <= purity 2 out <= 1)%R.
Proof. destruct ct_states as (_ & S' & _ & P'). exact (proj2 (C130_purity_is_between ex_world 2 [] _ ct_gates _ ex_world_order ct_run S' P')). Qed.

(** the maximally mixed state stays maximally mixed *)
Theorem C130_maximally_mixed_state_is_fixed : forall w n vals c gs st, set_order (set_iter w) -> runnable n vals c gs -> Forall mixing_noise gs -> state_of n st -> maximally_mixed n st ->
    exists out, run w c st vals = Ok (Some out) /\ maximally_mixed n out.
Proof. exact c130_mixed. Qed.
Print Assumptions C130_maximally_mixed_state_is_fixed.
Definition pu_mixed (n : nat) : arr := mkArr (repeat 2 (2 * n)) (map (fun xy => if list_eq_dec Nat.eq_dec (firstn n xy) (skipn n xy) then RtoC (/ 2 ^ n) else C0) (bitstrings (2 * n))).
Example pu_mixed_is : forall n, n = 1 \/ n = 2 -> state_of n (SDM (pu_mixed n)) /\ maximally_mixed n (SDM (pu_mixed n)).
Proof.
  intros n [->| ->]; (split; [split; reflexivity|]); intros x y Hx Hy; simpl in Hx, Hy; decompose [or] Hx; decompose [or] Hy; subst; try contradiction; apply C_ext; lazy -[Rplus Rmult Ropp Rminus Rdiv Rinv IZR]; ring.
Qed.
Example C130_mixed_example : exists out, run ex_world (OpSequence (map OGate (pu_gates (Some pu_noise)))) (SDM (pu_mixed 2)) [] = Ok (Some out) /\ maximally_mixed 2 out.
Proof.
  destruct (pu_mixed_is 2 (or_intror eq_refl)) as [S M]. apply (C130_maximally_mixed_state_is_fixed ex_world 2 [] _ (pu_gates (Some pu_noise)) _ ex_world_order (pu_run (Some pu_noise) pu_noise_ok)); [|exact S|exact M].
  apply Forall_cons; [exact Logic.I|]. apply Forall_cons; [|apply Forall_nil]. unfold mixing_noise. cbn [noise gX]. repeat constructor.
Qed.
(** amplitude damping is not of this kind: it turns the maximally mixed qubit into |0> *)
Example C130_damping_purifies : exists out, run ex_world (OpSequence [OGate (gI (TInt 0) no_control (Some [amplitude_damping 1]) false)]) (SDM (pu_mixed 1)) [] = Ok (Some out) /\
    purity 1 (SDM (pu_mixed 1)) = (/ 2)%R /\ purity 1 out = 1%R.
Proof.
  set (gs := [gI (TInt 0) no_control (Some [amplitude_damping 1]) false]). destruct (pu_mixed_is 1 (or_introl eq_refl)) as [S M].
  assert (A : accepted (amplitude_damping 1)) by (apply accept_amplitude; split; lra).
  assert (RN : runnable 1 [] (OpSequence (map OGate gs)) gs).
  { split; [apply sequence_gates|split; [discriminate|split; [|split; [repeat constructor|]]]].
    - apply Forall_cons; [do 3 eexists; split; [eapply gm_fixed; simpl; eauto 10|apply cq_default|reflexivity|apply valid_one; lia]|apply Forall_nil].
    - apply Forall_cons; [split; [reflexivity|apply Forall_cons; [exact A|apply Forall_nil]]|apply Forall_nil]. }
  destruct (output_spec ex_world 1 [] (OpSequence (map OGate gs)) gs (SDM (pu_mixed 1)) ex_world_order RN S) as (out & E & _ & _ & _ & K & _).
  exists out. split; [exact E|]. split; [unfold purity, overlap_trace, pu_mixed; lazy -[Rplus Rmult Ropp Rminus Rdiv Rinv IZR]; field|].
  assert (KO : keq 1 (density_of out) (fun x y => match x, y with [0], [0] => C1 | _, _ => C0 end)).
  { eapply keq_trans; [exact K|]. assert (Q : evolve 1 [] gs (density_of (SDM (pu_mixed 1))) = kraus_sum 1 0 (kraus_of (amplitude_damping 1)) (sandwiched 1 (gate_op I_matrix [] [0]) (density_of (SDM (pu_mixed 1))))) by reflexivity.
    rewrite Q. intros x y Hx Hy. rewrite (kraus_block 1 0) by (auto; lia).
    rewrite (channel1_doc _ _ A) by (eapply bits1_in; eauto; lia). simpl in Hx, Hy. decompose [or] Hx; decompose [or] Hy; subst; try contradiction;
    apply C_ext; lazy -[Rplus Rmult Ropp Rminus Rdiv Rinv IZR sqrt]; rewrite ?Rminus_diag_eq, ?sqrt_0 by reflexivity; field. }
  unfold purity, overlap_trace. rewrite (csum_ext _ _ (fun x => csum (bitstrings 1) (fun y => Cmul ((fun x y => match x, y with [0], [0] => C1 | _, _ => C0 end) x y) ((fun x y => match x, y with [0], [0] => C1 | _, _ => C0 end) y x)))).
  - lazy -[Rplus Rmult Ropp Rminus Rdiv Rinv IZR]. ring.
  - intros x Hx. apply csum_ext; intros y Hy. rewrite (KO x y Hx Hy), (KO y x Hy Hx). reflexivity.
Qed.
