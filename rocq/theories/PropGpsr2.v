(** * C80: finite-shot parameter-shift gradients.

    The vocabulary is in Spec.v, GateSpec.v, PropSpec.v, NoiseSpec.v, SampleSpec.v, ExpectSpec.v, ShotsSpec.v, GpsrSpec.v and
    GpsrSpec2.v.  Every theorem is followed by an example that meets its hypotheses. *)
From Coq Require Import String List Arith Bool Reals Lia Lra ZArith Permutation.
From Verif Require Import Cplx Py Ndarray OperatorUtils ApplyOperator Sparse Matrices Noise Gates Apply Composite Conversion Shots Gpsr Api
  Spec GateSpec PropSpec NoiseSpec SampleSpec ExpectSpec ShotsSpec GpsrSpec GpsrSpec2 SpecFacts NoiseThm SeqThm ExpectThm2 ShotsThm ShotsThm2 GpsrThm GpsrThm2 GpsrThm3 GpsrThm4 Examples.
Import ListNotations.
Local Open Scope nat_scope.

(** in the mean, the finite-shot gradient is the analytical one *)
Theorem C80_finite_shots_gradient_unbiased : forall w n vals gs st l K ev V ls Ks evs k split key Om,
    set_order (set_iter w) -> gs <> [] -> Forall (usable n vals) gs -> Forall dense_gate gs -> Forall noise_ok gs -> Forall (fun g => gclass g <> KPhase) gs ->
    state_of n st -> diagonalised w n K ev V -> 0 < k ->
    (forall gs' v, shifted_evaluation vals gs gs' v -> jointly_measured w n v V (l :: ls) (K :: Ks) (ev :: evs) /\ Forall2 (readable w n v st gs) (l :: ls) (K :: Ks)) ->
    (forall gs' v out key', shifted_evaluation vals gs gs' v -> run w (OSeq (map OGate gs')) st v = Ok (Some out) -> fair_sampling Om key' (outcome_distribution n (entry V) out) k) ->
    same_in_mean Om (fun ch => finite_shots_gpsr_bwd (with_choice w ch) st (GMany gs) (l :: ls) vals k split key) (analytical_gpsr_bwd w st (GMany gs) (l :: ls) vals).
Proof. exact c80_bwd. Qed.
Print Assumptions C80_finite_shots_gradient_unbiased.
(** ... and so the derivative, for rotation gates *)
Theorem C80_finite_shots_gradient_estimates_derivative : forall w n vals circuit gs st l K ev V ls Ks evs k split key Om,
    set_order (set_iter w) -> numeric_values vals -> vals <> [] -> sequence_of circuit gs -> gs <> [] -> Forall (usable n vals) gs -> Forall dense_gate gs -> Forall noise_ok gs -> Forall (fun g => gclass g <> KPhase) gs ->
    (forall g, In g gs -> names_of_gate g <> [] -> plain_rotation g) -> (forall name, In name (map fst vals) -> In name (flat_map names_of_gate gs)) ->
    state_of n st -> diagonalised w n K ev V -> 0 < k ->
    (forall v, jointly_measured w n v V (l :: ls) (K :: Ks) (ev :: evs) /\ Forall2 (readable w n v st gs) (l :: ls) (K :: Ks)) ->
    (forall gs' v out key', shifted_evaluation vals gs gs' v -> run w (OSeq (map OGate gs')) st v = Ok (Some out) -> fair_sampling Om key' (outcome_distribution n (entry V) out) k) ->
    exists est grads, (forall ch, finite_shots_gpsr_bwd (with_choice w ch) st (GMany gs) (l :: ls) vals k split key = Ok (est ch) /\ length (est ch) = length vals) /\ length grads = length vals /\
      forall i name, nth_error (map fst vals) i = Some name ->
        gradient_at (fun v => expectation w st circuit (l :: ls) v GPSR 0 key) vals name (nth i grads []) /\
        expected Om (fun ch => nth i (est ch) 0%R) = total (nth i grads []).
Proof. exact c80_derivative. Qed.
Print Assumptions C80_finite_shots_gradient_estimates_derivative.
(** two RX gates with the same angle x: there are fair draws, and the estimates have expected value -2 sin(2x) for any of them *)
Example rxs_measured : forall v, jointly_measured pauli_world 1 v VZ [z0_obs] [oZ] [pm1] /\ Forall2 (readable pauli_world 1 v (SDense (zero_state 1)) rxs) [z0_obs] [oZ].
Proof.
  intro v. split; [econstructor; [exact (z0_obs_on pauli_world 1 v (le_n 1))|exact pauli_world_Z|apply same_columns_refl|constructor]|].
  apply Forall2_cons; [|apply Forall2_nil]. split; [exists false; exact (z0_obs_on pauli_world 1 v (le_n 1))|]. intro M. exfalso. revert M. apply no_mix. repeat (apply Forall_cons; [reflexivity|]). apply Forall_nil.
Qed.
Example C80_example : forall x split, exists est Om,
    (forall ch, finite_shots_gpsr_bwd (with_choice pauli_world ch) (SDense (zero_state 1)) (GMany rxs) [z0_obs] [("a"%string, VNum x)] 7 split 0 = Ok (est ch)) /\
    expected Om (fun ch => nth 0 (est ch) 0%R) = (-2 * sin (2 * x))%R.
Proof.
  intros x split.
  assert (FD : Forall dense_gate rxs) by (repeat (apply Forall_cons; [reflexivity|]); apply Forall_nil).
  assert (FN : Forall noise_ok rxs) by (repeat (apply Forall_cons; [exact Logic.I|]); apply Forall_nil).
  assert (NP : Forall (fun g => gclass g <> KPhase) rxs) by (repeat (apply Forall_cons; [discriminate|]); apply Forall_nil).
  assert (PH : physical 1 (SDense (zero_state 1))) by (unfold physical, norm2; lazy -[Rplus Rmult Ropp Rminus IZR]; ring).
  destruct (c80_fair_exist pauli_world 1 [("a"%string, VNum x)] rxs (SDense (zero_state 1)) VZ 7) as (Om & HF).
  { intros gs' v out S E. destruct (shifted_usable 1 [("a"%string, VNum x)] rxs gs' v NP (rxs_usable x []) FD FN) as (A1 & A2 & A3 & A4 & _); [discriminate|exact S|].
    destruct (c51_value pauli_world 1 v (OSeq (map OGate gs')) gs' (SDense (zero_state 1)) z0_obs oZ pm1 VZ [] [] [] AD 7 0 pauli_world_order (seq_sequence gs') A4 A1 A2 A3) as (out' & E' & _ & _ & _ & _ & PD & _);
      [split; reflexivity|exact pauli_world_Z|apply rxs_measured|left; reflexivity|lia|]. rewrite E in E'. injection E' as <-. apply PD; exact PH. }
  destruct (C80_finite_shots_gradient_estimates_derivative pauli_world 1 [("a"%string, VNum x)] (seq_oper rxs) rxs (SDense (zero_state 1)) z0_obs oZ pm1 VZ [] [] [] 7 split 0 Om)
    as (est & grads & E1 & LG & E2).
  - exact pauli_world_order.
  - split; [repeat constructor; intros []|]. apply Forall_cons; [eexists; reflexivity|apply Forall_nil].
  - discriminate.
  - apply seq_sequence.
  - discriminate.
  - apply rxs_usable.
  - exact FD.
  - exact FN.
  - exact NP.
  - intros g [<-|[<-|[]]] _; (split; [reflexivity|split; [left; reflexivity|apply cq_none]]).
  - intros name [<-|[]]. left; reflexivity.
  - split; reflexivity.
  - exact pauli_world_Z.
  - lia.
  - exact rxs_measured.
  - intros gs' v out key' S E. apply (HF gs' v out key' S E).
  - destruct grads as [|d [|? ?]]; try discriminate. destruct (E2 0 "a"%string eq_refl) as [G1 G2]. cbn [nth] in G1, G2.
    rewrite (gradient_unique _ _ _ _ _ G1 (rxs_gradient pauli_world x [])) in G2.
    exists est, Om. split; [intro ch; apply E1|]. etransitivity; [exact G2|]. unfold total; cbn [rsum]. ring.
Qed.
