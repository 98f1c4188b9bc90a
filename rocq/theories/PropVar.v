(** * C109, C110: the variational principle; density matrices as mixtures of state vectors.

    The vocabulary is in Spec.v, GateSpec.v, PropSpec.v, NoiseSpec.v, SampleSpec.v, ExpectSpec.v, ShotsSpec.v, GpsrSpec.v, PhysSpec.v and VarSpec.v.
    Every theorem is followed by an example that meets its hypotheses. *)
From Coq Require Import String List Arith Bool Reals Lia Lra ZArith Permutation.
From Verif Require Import Cplx Py Ndarray OperatorUtils ApplyOperator Sparse Matrices Noise Gates Apply Composite Shots Gpsr Api
  Spec GateSpec PropSpec NoiseSpec SampleSpec ExpectSpec ShotsSpec GpsrSpec PhysSpec VarSpec AlgebraFacts TensorThm NoiseThm NoiseThm2 SeqThm ExpectThm ExpectThm2 ShotsThm ShotsThm2
  VarThm Examples.
Import ListNotations.
Local Open Scope nat_scope.

(** C109: no circuit goes below the lowest, or above the highest, energy of the observable *)
Theorem C109_variational_principle : forall w n vals c gs st l K lo hi mode key, set_order (set_iter w) -> flat_values vals -> runnable n vals c gs -> state_of n st -> physical n st ->
    readable w n vals st gs l K -> bounded_below n K lo -> bounded_above n K hi -> exact_mode mode ->
    exists e, expectation w st c [l] vals mode 0 key = Ok [e] /\ (lo <= e <= hi)%R.
Proof. exact c109_variational. Qed.
Print Assumptions C109_variational_principle.
(** Z on one qubit, after X *)
Example oZ_bounds : bounded_below 1 oZ (-1) /\ bounded_above 1 oZ 1 /\ hermitian 1 oZ.
Proof.
  assert (Q : forall f, re (qform 1 oZ f) = (Cnorm2 (f [0%nat]) - Cnorm2 (f [1%nat]))%R).
  { intro f. unfold qform, inner_product, apply_kernel, oZ. cbn [ksum]. unfold gate_op, ctrl_kernel. lazy -[Rplus Rmult Ropp Rminus IZR]. destruct (f [0]), (f [1]). lazy -[Rplus Rmult Ropp Rminus IZR]. ring. }
  assert (N : forall f, norm2 1 f = (Cnorm2 (f [0%nat]) + Cnorm2 (f [1%nat]))%R) by (intro f; unfold norm2; cbn; ring).
  split; [|split].
  - intro f. rewrite Q, N. pose proof (Cnorm2_nonneg (f [0])). lra.
  - intro f. rewrite Q, N. pose proof (Cnorm2_nonneg (f [1])). lra.
  - intros x y Hx Hy. simpl in Hx, Hy. destruct Hx as [<-|[<-|[]]], Hy as [<-|[<-|[]]]; unfold kadj, oZ; ex_calc.
Qed.
Example x0_runnable : runnable 1 [] (OpSequence [x0_gate]) [gX q0 no_control None false].
Proof.
  split; [exact x0_sequence|split; [discriminate|split; [apply Forall_cons; [exact x0_usable|apply Forall_nil]|split; [apply Forall_cons; [reflexivity|apply Forall_nil]|apply Forall_cons; [exact Logic.I|apply Forall_nil]]]]].
Qed.
Example x0_readable : readable pauli_world 1 [] (SDense (zero_state 1)) [gX q0 no_control None false] [z0_gate] oZ.
Proof.
  split; [exists false; exact (z0_on _)|]. intros [(a & E)|(g & [<-|[]] & N)]; [discriminate|]. elim N. reflexivity.
Qed.
Example zero_physical : physical 1 (SDense (zero_state 1)).
Proof. unfold physical, norm2; lazy -[Rplus Rmult Ropp Rminus IZR]; ring. Qed.
Example C109_example : exists e, expectation pauli_world (SDense (zero_state 1)) (OpSequence [x0_gate]) [[z0_gate]] [] AD 0 0 = Ok [e] /\ (-1 <= e <= 1)%R.
Proof.
  apply (C109_variational_principle pauli_world 1 [] (OpSequence [x0_gate]) [gX q0 no_control None false] (SDense (zero_state 1)) [z0_gate] oZ);
    [exact pauli_world_order|left; reflexivity|exact x0_runnable|split; reflexivity|exact zero_physical|exact x0_readable|apply oZ_bounds|apply oZ_bounds|constructor].
Qed.
(** the lowest energy is reached exactly when the output is a ground state, or a mixture of ground states *)
Theorem C109_minimum_at_ground_states : forall w n vals c gs st l K E mode key, set_order (set_iter w) -> flat_values vals -> runnable n vals c gs -> state_of n st -> physical n st ->
    readable w n vals st gs l K -> hermitian n K -> bounded_below n K E -> exact_mode mode ->
    exists out, run w c st vals = Ok (Some out) /\
      (expectation w st c [l] vals mode 0 key = Ok [E] <-> eigenstate n K E out).
Proof. exact c109_minimum. Qed.
Print Assumptions C109_minimum_at_ground_states.
Example C109_minimum_example : exists out, run pauli_world (OpSequence [x0_gate]) (SDense (zero_state 1)) [] = Ok (Some out) /\
    (expectation pauli_world (SDense (zero_state 1)) (OpSequence [x0_gate]) [[z0_gate]] [] AD 0 0 = Ok [(-1)%R] <-> eigenstate 1 oZ (-1) out).
Proof.
  apply (C109_minimum_at_ground_states pauli_world 1 [] (OpSequence [x0_gate]) [gX q0 no_control None false] (SDense (zero_state 1)) [z0_gate] oZ);
    [exact pauli_world_order|left; reflexivity|exact x0_runnable|split; reflexivity|exact zero_physical|exact x0_readable|apply oZ_bounds|apply oZ_bounds|constructor].
Qed.
(** with shots: every estimate, whatever the key *)
Theorem C109_variational_principle_with_shots : forall w n vals c gs st l K ev V lo hi mode k key, set_order (set_iter w) -> choice_contract w -> runnable n vals c gs -> state_of n st ->
    observable_on w n vals false l K -> diagonalised w n K ev V -> bounded_below n K lo -> bounded_above n K hi -> exact_mode mode -> (0 < k)%Z ->
    exists e, expectation w st c [l] vals mode k key = Ok [e] /\ (lo <= e <= hi)%R.
Proof. exact c109_shots. Qed.
Print Assumptions C109_variational_principle_with_shots.
Example C109_shots_example : forall key, exists e, expectation pauli_world (SDense (zero_state 1)) (OpSequence [x0_gate]) [[z0_gate]] [] GPSR 100 key = Ok [e] /\ (-1 <= e <= 1)%R.
Proof.
  intro key. apply (C109_variational_principle_with_shots pauli_world 1 [] (OpSequence [x0_gate]) [gX q0 no_control None false] (SDense (zero_state 1)) [z0_gate] oZ pm1 VZ);
    [exact pauli_world_order|exact pauli_world_choice|exact x0_runnable|split; reflexivity|exact (z0_on _)|exact pauli_world_Z|apply oZ_bounds|apply oZ_bounds|constructor|lia].
Qed.

(** C110 *)
Theorem C110_density_matrices_are_mixtures : forall n st, state_of n st -> physical n st -> exists ens, mixture_of n (density_of st) ens.
Proof. exact c110_mixture. Qed.
Print Assumptions C110_density_matrices_are_mixtures.
Theorem C110_expectation_of_a_mixture : forall w n vals c gs rho ens obs Ks mode key, set_order (set_iter w) -> flat_values vals -> runnable n vals c gs -> is_density n rho ->
    mixture_of n (rho_entry rho) ens -> obs <> [] -> Forall2 (density_ready w n vals) obs Ks -> exact_mode mode ->
    exists f : arr -> list R,
      (forall pa, In pa ens -> expectation w (SDense (snd pa)) c obs vals mode 0 key = Ok (f (snd pa))) /\
      expectation w (SDM rho) c obs vals mode 0 key = Ok (map (fun i => rsum ens (fun pa => fst pa * nth i (f (snd pa)) 0)%R) (seq 0 (length obs))).
Proof. exact c110_expectation. Qed.
Print Assumptions C110_expectation_of_a_mixture.
Theorem C110_outputs_are_mixtures : forall w n vals c gs st, set_order (set_iter w) -> runnable n vals c gs -> state_of n st -> physical n st ->
    exists out ens, run w c st vals = Ok (Some out) /\ mixture_of n (density_of out) ens.
Proof. exact c110_output. Qed.
Print Assumptions C110_outputs_are_mixtures.
(** a circuit with noisy gates on three qubits: its output is a mixture, and its expectation value on that mixture is the mean over the state vectors *)
Example C110_example : exists out ens, run inc_world ex_noisy_oper (SDense (basis [0; 0; 0])) ex_values = Ok (Some out) /\ mixture_of 3 (density_of out) ens /\
    (forall rho, out = SDM rho -> is_density 3 rho -> exists f : arr -> list R,
      (forall pa, In pa ens -> expectation inc_world (SDense (snd pa)) ex_noisy_oper [ex_obs] ex_values AD 0 0 = Ok (f (snd pa))) /\
      expectation inc_world (SDM rho) ex_noisy_oper [ex_obs] ex_values AD 0 0 = Ok [rsum ens (fun pa => fst pa * nth 0 (f (snd pa)) 0)%R]).
Proof.
  assert (RN : runnable 3 ex_values ex_noisy_oper ex_noisy_gates).
  { split; [exact ex_noisy_sequence|]. split; [discriminate|]. split; [exact ex_noisy_usable|]. split; [exact ex_noisy_dense|exact ex_noisy_ok]. }
  destruct (C110_outputs_are_mixtures inc_world 3 ex_values ex_noisy_oper ex_noisy_gates (SDense (basis [0; 0; 0])) inc_world_order RN) as (out & ens & E & M).
  - split; reflexivity.
  - unfold physical, norm2; lazy -[Rplus Rmult Ropp Rminus IZR]; ring.
  - exists out, ens. split; [exact E|split; [exact M|]]. intros rho -> D.
    apply (C110_expectation_of_a_mixture inc_world 3 ex_values ex_noisy_oper ex_noisy_gates rho ens [ex_obs] [ex_obs_op] AD 0); try assumption.
    + exact inc_world_order.
    + left; reflexivity.
    + discriminate.
    + constructor; [exact ex_obs_ready|constructor].
    + constructor.
Qed.
