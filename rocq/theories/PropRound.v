(** * C127: rounding errors add up at most linearly.

    The vocabulary is in Spec.v, GateSpec.v, PropSpec.v, SampleSpec.v, ExpectSpec.v, ShotsSpec.v, GpsrSpec.v, PhysSpec.v, VarSpec.v, FreqSpec.v
    and RoundSpec.v.  Every theorem is followed by an example that meets its hypotheses. *)
From Coq Require Import String List Arith Bool ZArith Reals Lia Lra.
From Verif Require Import Cplx Py Ndarray OperatorUtils ApplyOperator Sparse Matrices Noise Gates Apply Composite Conversion Shots Gpsr Api
  Spec GateSpec PropSpec NoiseSpec SampleSpec ShotsSpec ExpectSpec GpsrSpec StructSpec PhysSpec VarSpec HeisSpec FreqSpec ContractSpec RoundSpec AlgebraFacts StructThm3 SampleThm ExpectThm2
  PhysThm VarThm ContractThm RoundThm Examples ShotsThm PropContract.
Import ListNotations.
Local Open Scope nat_scope.

(** two X gates on |0>.  The input is stored as 0.9|0>; after the first gate the vector is rounded from 0.9|1> to |1>; after the second gate from |0> to 0.9|0>. *)
Definition rd_gate : gate := gX q0 no_control None false.
Definition rd_gates : list gate := [rd_gate; rd_gate].
Definition rd_exact : arr := zero_state 1.
Definition rd_start : arr := mkArr [2] [RtoC (9 / 10); C0].
Definition rd_middle : arr := mkArr [2] [C0; C1].
Definition rd_end : arr := mkArr [2] [RtoC (9 / 10); C0].
Example rd_runnable : runnable 1 [] (OpSequence (map OGate rd_gates)) rd_gates.
Proof.
  assert (U : usable 1 [] rd_gate) by exact x0_usable.
  split; [apply sequence_gates|split; [discriminate|split; [repeat constructor; exact U|split; repeat constructor]]].
Qed.
Example rd_step : forall x y, exists b, apply_gates ex_world (SDense (mkArr [2] [x; y])) (GMany [rd_gate]) [] UNITARY false true = Ok (SDense b) /\ amp b [0] = y /\ amp b [1] = x.
Proof.
  intros [x x'] [y y']. eexists. split; [lazy -[Rplus Rmult Ropp Rminus IZR]; reflexivity|]. split; lazy -[Rplus Rmult Ropp Rminus IZR]; apply C_ext; simpl; ring.
Qed.
Lemma rd_distance : forall a b e, (0 <= e)%R -> (norm2 1 (fun x => Csub (amp a x) (amp b x)) <= e * e)%R -> (distance 1 a b <= e)%R.
Proof. intros a b e He H. unfold distance. rewrite <- (sqrt_Rsqr e He). apply sqrt_le_1_alt. exact H. Qed.
Example rd_rounded : rounded ex_world 1 [] (1 / 10) 2 rd_gates rd_start rd_end.
Proof.
  destruct (rd_step (RtoC (9 / 10)) C0) as (b & E & B0 & B1). destruct (rd_step C0 C1) as (b' & E' & B0' & B1').
  change rd_gates with ([rd_gate] ++ [rd_gate] ++ []).
  apply (rd_portion ex_world 1 [] (1 / 10) 1 [rd_gate] ([rd_gate] ++ []) rd_start b rd_middle); [discriminate|exact E|split; reflexivity| |].
  - apply rd_distance; [lra|]. unfold norm2. cbn [bitstrings map app rsum]. change (amp rd_middle [0]) with C0. change (amp rd_middle [1]) with C1. rewrite B0, B1. unfold Cnorm2. simpl. lra.
  - apply (rd_portion ex_world 1 [] (1 / 10) 0 [rd_gate] [] rd_middle b' rd_end); [discriminate|exact E'|split; reflexivity| |apply rd_done].
    apply rd_distance; [lra|]. unfold norm2. cbn [bitstrings map app rsum]. change (amp rd_end [0]) with (RtoC (9 / 10)). change (amp rd_end [1]) with C0. rewrite B0', B1'. unfold Cnorm2. simpl. lra.
Qed.
Example rd_input : is_state 1 rd_exact /\ physical 1 (SDense rd_exact) /\ is_state 1 rd_start /\ (distance 1 rd_start rd_exact <= 1 / 10)%R.
Proof.
  split; [split; reflexivity|split; [unfold physical, norm2; lazy -[Rplus Rmult Ropp Rminus IZR]; ring|split; [split; reflexivity|]]].
  apply rd_distance; [lra|]. unfold norm2; lazy -[Rplus Rmult Ropp Rminus Rdiv Rinv IZR Rle]. lra.
Qed.

(** the final vector is at most the initial error plus one rounding error per portion away from the exact result *)
Theorem C127_errors_add_up : forall w n vals circuit gs a0 a c delta eps k, set_order (set_iter w) -> runnable n vals circuit gs -> Forall noiseless gs ->
    is_state n a0 -> is_state n a -> (distance n a a0 <= eps)%R -> rounded w n vals delta k gs a c ->
    exists out, run w circuit (SDense a0) vals = Ok (Some (SDense out)) /\ (distance n c out <= eps + INR k * delta)%R.
Proof. exact c127_states. Qed.
Print Assumptions C127_errors_add_up.
Example C127_errors_example : exists out, run ex_world (OpSequence (map OGate rd_gates)) (SDense rd_exact) [] = Ok (Some (SDense out)) /\ (distance 1 rd_end out <= 3 / 10)%R.
Proof.
  destruct rd_input as (S0 & P0 & S1 & D).
  destruct (C127_errors_add_up ex_world 1 [] _ rd_gates rd_exact rd_start rd_end (1 / 10) (1 / 10) 2 ex_world_order rd_runnable ltac:(repeat constructor) S0 S1 D rd_rounded) as (out & E & B).
  exists out. split; [exact E|]. cbn [INR] in B. lra.
Qed.

(** outcome probabilities read from the rounded vector *)
Theorem C127_outcome_probabilities_of_rounded_states : forall w n vals circuit gs a0 a c delta eps k ev, set_order (set_iter w) -> runnable n vals circuit gs -> Forall noiseless gs ->
    is_state n a0 -> physical n (SDense a0) -> is_state n a -> (distance n a a0 <= eps)%R -> rounded w n vals delta k gs a c ->
    exists out, run w circuit (SDense a0) vals = Ok (Some (SDense out)) /\
      let eta := (eps + INR k * delta)%R in (Rabs (event_probability n ev (SDense c) - event_probability n ev (SDense out)) <= 2 * eta + eta * eta)%R.
Proof. exact c127_outcomes. Qed.
Print Assumptions C127_outcome_probabilities_of_rounded_states.
Definition rd_zero (x : list nat) : bool := Nat.eqb (nth 0 x 0) 0.
Example C127_outcomes_example : exists out, run ex_world (OpSequence (map OGate rd_gates)) (SDense rd_exact) [] = Ok (Some (SDense out)) /\
    (Rabs (event_probability 1 rd_zero (SDense rd_end) - event_probability 1 rd_zero (SDense out)) <= 69 / 100)%R.
Proof.
  destruct rd_input as (S0 & P0 & S1 & D).
  destruct (C127_outcome_probabilities_of_rounded_states ex_world 1 [] _ rd_gates rd_exact rd_start rd_end (1 / 10) (1 / 10) 2 rd_zero ex_world_order rd_runnable ltac:(repeat constructor) S0 P0 S1 D rd_rounded)
    as (out & E & B). exists out. split; [exact E|]. cbn [INR] in B. lra.
Qed.

(** expectation values read from the rounded vector *)
Theorem C127_expectations_of_rounded_states : forall w n vals circuit gs a0 a c delta eps k l K b mode key, set_order (set_iter w) -> flat_values vals -> runnable n vals circuit gs -> Forall noiseless gs ->
    is_state n a0 -> physical n (SDense a0) -> is_state n a -> (distance n a a0 <= eps)%R -> rounded w n vals delta k gs a c ->
    readable w n vals (SDense a0) gs l K -> bounded_below n K (- b) -> bounded_above n K b -> (0 <= b)%R -> exact_mode mode ->
    exists e, expectation w (SDense a0) circuit [l] vals mode 0 key = Ok [e] /\
      let eta := (eps + INR k * delta)%R in (Rabs (mean n K (SDense c) - e) <= b * (2 * eta + eta * eta))%R.
Proof. exact c127_expectation. Qed.
Print Assumptions C127_expectations_of_rounded_states.
Example rd_readable : readable ex_world 1 [] (SDense rd_exact) rd_gates [z0_gate] oZ.
Proof.
  split; [exists false; exact (z0_on _)|]. intros [(b & E)|(g & [<-|[<-|[]]] & N)]; [discriminate| |]; elim N; reflexivity.
Qed.
Example C127_expectation_example : exists e, expectation ex_world (SDense rd_exact) (OpSequence (map OGate rd_gates)) [[z0_gate]] [] AD 0 0 = Ok [e] /\ (Rabs (mean 1 oZ (SDense rd_end) - e) <= 69 / 100)%R.
Proof.
  destruct rd_input as (S0 & P0 & S1 & D).
  destruct (C127_expectations_of_rounded_states ex_world 1 [] _ rd_gates rd_exact rd_start rd_end (1 / 10) (1 / 10) 2 [z0_gate] oZ 1 AD 0 ex_world_order (or_introl eq_refl) rd_runnable ltac:(repeat constructor)
    S0 P0 S1 D rd_rounded rd_readable (proj1 ct_oZ) (proj2 ct_oZ) ltac:(lra) exact_AD) as (e & E & B). exists e. split; [exact E|]. cbn [INR] in B. lra.
Qed.
