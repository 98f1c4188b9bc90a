(** * C46, C50, C51, C79: finite-shot expectations.

    The vocabulary is in Spec.v, GateSpec.v, PropSpec.v, NoiseSpec.v, SampleSpec.v, ExpectSpec.v and ShotsSpec.v.  Every
    theorem is followed by an example that meets its hypotheses. *)
From Coq Require Import String List Arith Bool Reals Lia Lra ZArith Permutation.
From Verif Require Import Cplx Py Ndarray OperatorUtils ApplyOperator Sparse Matrices Noise Gates Apply Composite Shots Gpsr Api
  Spec GateSpec PropSpec NoiseSpec SampleSpec ExpectSpec ShotsSpec AlgebraFacts TensorThm NoiseThm NoiseThm2 SeqThm ExpectThm ExpectThm2 ShotsThm ShotsThm2 Examples.
Import ListNotations.
Local Open Scope nat_scope.

(** C50: one observable *)
Theorem C50_finite_shots_estimate_one_observable : forall w n vals circuit gs st l K ev V mode k key,
    set_order (set_iter w) -> choice_contract w -> sequence_of circuit gs -> gs <> [] ->
    Forall (usable n vals) gs -> Forall dense_gate gs -> Forall noise_ok gs -> state_of n st ->
    observable_on w n vals false l K -> diagonalised w n K ev V ->
    mode = AD \/ mode = GPSR -> (0 < k)%Z ->
    exists out, run w circuit st vals = Ok (Some out) /\ state_of n out /\
      let p := outcome_distribution n (entry V) out in
      let estimate := average (values_at ev (choice w key p (Z.to_nat k))) in
      expectation w st circuit [l] vals mode k key = Ok [estimate] /\
      (physical n st -> is_distribution p) /\ weighted p ev = mean n K out /\
      exists lo hi, In lo ev /\ In hi ev /\ (lo <= estimate <= hi)%R.
Proof. exact c50_single. Qed.
Print Assumptions C50_finite_shots_estimate_one_observable.
Example C50_example : exists out,
    run pauli_world (OpSequence [x0_gate]) (SDense (zero_state 1)) [] = Ok (Some out) /\ is_distribution (outcome_distribution 1 (entry VZ) out) /\
    expectation pauli_world (SDense (zero_state 1)) (OpSequence [x0_gate]) [[z0_gate]] [] AD 5 0
      = Ok [average (values_at [-1; 1]%R (choice pauli_world 0 (outcome_distribution 1 (entry VZ) out) 5))] /\
    weighted (outcome_distribution 1 (entry VZ) out) [-1; 1]%R = mean 1 oZ out.
Proof.
  destruct (C50_finite_shots_estimate_one_observable pauli_world 1 [] (OpSequence [x0_gate]) [gX q0 no_control None false] (SDense (zero_state 1)) [z0_gate] oZ pm1 VZ AD 5 0)
    as (out & E1 & _ & E2 & E3 & E5 & _);
    [exact pauli_world_order|exact pauli_world_choice|exact x0_sequence|discriminate
    |apply Forall_cons; [exact x0_usable|apply Forall_nil]|apply Forall_cons; [reflexivity|apply Forall_nil]|apply Forall_cons; [exact Logic.I|apply Forall_nil]|split; reflexivity|exact (z0_on _)|exact pauli_world_Z|left; reflexivity|lia|].
  exists out. split; [exact E1|split; [apply E3|split; [exact E2|exact E5]]].
  unfold physical, norm2; lazy -[Rplus Rmult Ropp Rminus IZR]; ring.
Qed.

(** the expected value of the estimate, over any fair random draws *)
Theorem C50_finite_shots_unbiased_one_observable : forall w n vals circuit gs st l K ev V mode k key,
    set_order (set_iter w) -> sequence_of circuit gs -> gs <> [] ->
    Forall (usable n vals) gs -> Forall dense_gate gs -> Forall noise_ok gs -> state_of n st ->
    observable_on w n vals false l K -> diagonalised w n K ev V -> mode = AD \/ mode = GPSR -> (0 < k)%Z ->
    exists out estimate, run w circuit st vals = Ok (Some out) /\
      (forall ch, expectation (with_choice w ch) st circuit [l] vals mode k key = Ok [estimate ch]) /\
      forall Om, fair_sampling Om key (outcome_distribution n (entry V) out) (Z.to_nat k) -> expected Om estimate = mean n K out.
Proof. exact c50_unbiased. Qed.
Print Assumptions C50_finite_shots_unbiased_one_observable.
Example C50_unbiased_example : exists out estimate Om, run pauli_world (OpSequence [x0_gate]) (SDense (zero_state 1)) [] = Ok (Some out) /\
    (forall ch, expectation (with_choice pauli_world ch) (SDense (zero_state 1)) (OpSequence [x0_gate]) [[z0_gate]] [] AD 5 0 = Ok [estimate ch]) /\
    fair_sampling Om 0 (outcome_distribution 1 (entry VZ) out) 5 /\ expected Om estimate = mean 1 oZ out.
Proof.
  destruct C50_example as (out & E1 & E2 & _).
  destruct (C50_finite_shots_unbiased_one_observable pauli_world 1 [] (OpSequence [x0_gate]) [gX q0 no_control None false] (SDense (zero_state 1)) [z0_gate] oZ pm1 VZ AD 5 0)
    as (out' & estimate & E1' & E3 & E4);
    [exact pauli_world_order|exact x0_sequence|discriminate
    |apply Forall_cons; [exact x0_usable|apply Forall_nil]|apply Forall_cons; [reflexivity|apply Forall_nil]|apply Forall_cons; [exact Logic.I|apply Forall_nil]|split; reflexivity|exact (z0_on _)|exact pauli_world_Z|left; reflexivity|lia|].
  rewrite E1 in E1'. injection E1' as <-. destruct (fair_draws_exist 0 _ 5 E2) as (Om & HF & _). exists out, estimate, Om. split; [exact E1|split; [exact E3|split; [exact HF|apply E4; exact HF]]].
Qed.

(** C46 with shots: the draws are made with the caller's key and number of shots *)
Theorem C46_accepted_calls_with_shots : forall w n vals circuit gs st l K ev V mode k key,
    set_order (set_iter w) -> sequence_of circuit gs -> gs <> [] ->
    Forall (usable n vals) gs -> Forall dense_gate gs -> Forall noise_ok gs -> state_of n st ->
    observable_on w n vals false l K -> diagonalised w n K ev V -> mode = AD \/ mode = GPSR -> (0 < k)%Z ->
    exists out, run w circuit st vals = Ok (Some out) /\
      forall ch, expectation (with_choice w ch) st circuit [l] vals mode k key
        = Ok [average (values_at (eigenvalues_in n (entry V) K) (ch key (outcome_distribution n (entry V) out) (Z.to_nat k)))].
Proof. exact c46_shots. Qed.
Print Assumptions C46_accepted_calls_with_shots.
Example C46_shots_example : exists out, run pauli_world (OpSequence [x0_gate]) (SDense (zero_state 1)) [] = Ok (Some out) /\
    forall ch, expectation (with_choice pauli_world ch) (SDense (zero_state 1)) (OpSequence [x0_gate]) [[z0_gate]] [] GPSR 5 3
      = Ok [average (values_at (eigenvalues_in 1 (entry VZ) oZ) (ch 3 (outcome_distribution 1 (entry VZ) out) 5))].
Proof.
  apply (C46_accepted_calls_with_shots pauli_world 1 [] (OpSequence [x0_gate]) [gX q0 no_control None false] (SDense (zero_state 1)) [z0_gate] oZ pm1 VZ GPSR 5 3);
    [exact pauli_world_order|exact x0_sequence|discriminate
    |apply Forall_cons; [exact x0_usable|apply Forall_nil]|apply Forall_cons; [reflexivity|apply Forall_nil]|apply Forall_cons; [exact Logic.I|apply Forall_nil]|split; reflexivity|exact (z0_on _)|exact pauli_world_Z|right; reflexivity|lia].
Qed.

(** C51: several observables.  The estimates are right when the observables have common eigenvectors; not otherwise. *)
Theorem C51_finite_shots_common_eigenvectors_partial : forall w n vals circuit gs st l K ev V ls Ks evs mode k key,
    set_order (set_iter w) -> choice_contract w -> sequence_of circuit gs -> gs <> [] ->
    Forall (usable n vals) gs -> Forall dense_gate gs -> Forall noise_ok gs -> state_of n st ->
    diagonalised w n K ev V -> jointly_measured w n vals V (l :: ls) (K :: Ks) (ev :: evs) ->
    mode = AD \/ mode = GPSR -> (0 < k)%Z ->
    exists out, run w circuit st vals = Ok (Some out) /\ state_of n out /\
      let p := outcome_distribution n (entry V) out in
      let estimate K := average (values_at (eigenvalues_in n (entry V) K) (choice w key p (Z.to_nat k))) in
      expectation w st circuit (l :: ls) vals mode k key = Ok (map estimate (K :: Ks)) /\
      (physical n st -> is_distribution p) /\
      Forall2 (fun K ev => Permutation (eigenvalues_in n (entry V) K) ev) (K :: Ks) (ev :: evs) /\
      Forall (fun K => weighted p (eigenvalues_in n (entry V) K) = mean n K out) (K :: Ks) /\
      Forall2 (fun K ev => exists lo hi, In lo ev /\ In hi ev /\ (lo <= estimate K <= hi)%R) (K :: Ks) (ev :: evs).
Proof. exact c51_joint. Qed.
Print Assumptions C51_finite_shots_common_eigenvectors_partial.
Example C51_partial_example : jointly_measured pauli_world 1 [] VZ [[z0_gate]; [z0_gate]] [oZ; oZ] [[-1; 1]; [-1; 1]]%R.
Proof. repeat (econstructor; [exact (z0_on _)|exact pauli_world_Z|apply same_columns_refl|]). constructor. Qed.
Theorem C51_finite_shots_unbiased_partial : forall w n vals circuit gs st l K ev V ls Ks evs mode k key,
    set_order (set_iter w) -> sequence_of circuit gs -> gs <> [] ->
    Forall (usable n vals) gs -> Forall dense_gate gs -> Forall noise_ok gs -> state_of n st ->
    diagonalised w n K ev V -> jointly_measured w n vals V (l :: ls) (K :: Ks) (ev :: evs) ->
    mode = AD \/ mode = GPSR -> (0 < k)%Z ->
    exists out estimates, run w circuit st vals = Ok (Some out) /\
      (forall ch, expectation (with_choice w ch) st circuit (l :: ls) vals mode k key = Ok (estimates ch)) /\
      forall Om, fair_sampling Om key (outcome_distribution n (entry V) out) (Z.to_nat k) ->
      forall i, i < length (K :: Ks) -> expected Om (fun ch => nth i (estimates ch) 0%R) = mean n (nth i (K :: Ks) kid) out.
Proof. exact c79_unbiased. Qed.
Print Assumptions C51_finite_shots_unbiased_partial.
Theorem C51_finite_shots_other_observables_refuted : forall w key k, set_order (set_iter w) -> diagonalised w 1 oZ pm1 VZ -> diagonalised w 1 oX pm1 VX -> (0 < k)%Z ->
    exists out, run w (OpSequence [z0_gate]) (SDense (zero_state 1)) [] = Ok (Some out) /\
      let draws := choice w key [0; 1]%R (Z.to_nat k) in
      expectation w (SDense (zero_state 1)) (OpSequence [z0_gate]) [[z0_gate]; [x0_gate]] [] AD k key
        = Ok [average (values_at [-1; 1]%R draws); average (values_at [0; 1]%R draws)] /\
      weighted [0; 1]%R [0; 1]%R = 1%R /\ mean 1 oX out = 0%R /\
      expectation w (SDense (zero_state 1)) (OpSequence [z0_gate]) [[z0_gate]; [x0_gate]] [] AD 0 key = Ok [1%R; 0%R].
Proof. exact c51_refuted. Qed.
Print Assumptions C51_finite_shots_other_observables_refuted.
Example C51_refuted_example : set_order (set_iter pauli_world) /\ diagonalised pauli_world 1 oZ [-1; 1]%R VZ /\ diagonalised pauli_world 1 oX [-1; 1]%R VX.
Proof. split; [exact pauli_world_order|split; [exact pauli_world_Z|exact pauli_world_X]]. Qed.

(** C79: the variance of the estimates, and how likely they are far from the mean *)
Theorem C79_finite_shots_variance : forall w n vals circuit gs st l K ev V ls Ks evs mode k key,
    set_order (set_iter w) -> sequence_of circuit gs -> gs <> [] ->
    Forall (usable n vals) gs -> Forall dense_gate gs -> Forall noise_ok gs -> state_of n st ->
    diagonalised w n K ev V -> jointly_measured w n vals V (l :: ls) (K :: Ks) (ev :: evs) ->
    mode = AD \/ mode = GPSR -> (0 < k)%Z ->
    exists out estimates, run w circuit st vals = Ok (Some out) /\
      (forall ch, expectation (with_choice w ch) st circuit (l :: ls) vals mode k key = Ok (estimates ch)) /\
      forall Om, fair_sampling Om key (outcome_distribution n (entry V) out) (Z.to_nat k) -> independent_draws Om key (outcome_distribution n (entry V) out) (Z.to_nat k) ->
      forall i, i < length (K :: Ks) ->
      let A := nth i (K :: Ks) kid in
      let error ch := (nth i (estimates ch) 0 - mean n A out)%R in
      let variance := ((mean n (kmul n A A) out - mean n A out * mean n A out) / IZR k)%R in
      expected Om (fun ch => error ch * error ch)%R = variance /\
      forall eps, (0 < eps)%R -> (expected Om (fun ch => if Rle_dec eps (Rabs (error ch)) then 1 else 0) <= variance / (eps * eps))%R.
Proof. exact c80_variance. Qed.
Print Assumptions C79_finite_shots_variance.
Theorem C79_fair_draws_exist : forall key p k, is_distribution p -> exists Om, fair_sampling Om key p k /\ independent_draws Om key p k.
Proof. exact fair_draws_exist. Qed.
Print Assumptions C79_fair_draws_exist.
(** the sampled distribution of the theorem is one, so that fair independent draws exist *)
Example C79_example : exists out estimates Om, run pauli_world (OpSequence [x0_gate]) (SDense (zero_state 1)) [] = Ok (Some out) /\
    (forall ch, expectation (with_choice pauli_world ch) (SDense (zero_state 1)) (OpSequence [x0_gate]) [[z0_gate]] [] AD 5 0 = Ok (estimates ch)) /\
    fair_sampling Om 0 (outcome_distribution 1 (entry VZ) out) 5 /\ independent_draws Om 0 (outcome_distribution 1 (entry VZ) out) 5 /\
    expected Om (fun ch => (nth 0 (estimates ch) 0 - mean 1 oZ out) * (nth 0 (estimates ch) 0 - mean 1 oZ out))%R = ((mean 1 (kmul 1 oZ oZ) out - mean 1 oZ out * mean 1 oZ out) / 5)%R.
Proof.
  destruct C50_example as (out & E1 & E2 & _).
  destruct (C79_finite_shots_variance pauli_world 1 [] (OpSequence [x0_gate]) [gX q0 no_control None false] (SDense (zero_state 1)) [z0_gate] oZ pm1 VZ [] [] [] AD 5 0)
    as (out' & estimates & E1' & E3 & E4);
    [exact pauli_world_order|exact x0_sequence|discriminate
    |apply Forall_cons; [exact x0_usable|apply Forall_nil]|apply Forall_cons; [reflexivity|apply Forall_nil]|apply Forall_cons; [exact Logic.I|apply Forall_nil]|split; reflexivity|exact pauli_world_Z
    |econstructor; [exact (z0_on _)|exact pauli_world_Z|apply same_columns_refl|constructor]|left; reflexivity|lia|].
  rewrite E1 in E1'. injection E1' as <-. destruct (C79_fair_draws_exist 0 _ 5 E2) as (Om & HF & HI). exists out, estimates, Om. split; [exact E1|split; [exact E3|split; [exact HF|split; [exact HI|]]]].
  apply (E4 Om HF HI 0). cbn; lia.
Qed.
