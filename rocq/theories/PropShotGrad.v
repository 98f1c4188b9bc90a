(** * C122: finite-shot parameter-shift derivatives are unbiased and concentrate.

    The vocabulary is in Spec.v, GateSpec.v, PropSpec.v, NoiseSpec.v, SampleSpec.v, ExpectSpec.v, ShotsSpec.v, GpsrSpec.v,
    GpsrSpec2.v and ShotGradSpec.v.  Every theorem is followed by an example that meets its hypotheses. *)
From Coq Require Import Ascii String List Arith Bool Reals Lia Lra ZArith Permutation.
From Verif Require Import Cplx Py Ndarray OperatorUtils ApplyOperator Sparse Matrices Noise Gates Apply Composite Conversion Shots Gpsr Api
  Spec GateSpec PropSpec NoiseSpec SampleSpec ExpectSpec ShotsSpec GpsrSpec GpsrSpec2 ShotGradSpec SpecFacts NoiseThm SeqThm ExpectThm2 ShotsThm ShotsThm2 GpsrThm GpsrThm2 GpsrThm3 GpsrThm4 ShotGradThm2 Examples.
Import ListNotations.
Local Open Scope nat_scope.

(** forward differentiation: the returned value is the finite-shot expectation; each entry of the returned tangent has the exact directional derivative as its mean,
    and its mean squared error and the probability of large errors are bounded by the eigenvalues of the observable, the tangents and the number of shots *)
Theorem C122_finite_shots_jvp_concentrates : forall w n vals circuit gs st l K ev V ls Ks evs B k tangents uuid split key Om,
    set_order (set_iter w) -> numeric_values vals -> vals <> [] -> sequence_of circuit gs -> gs <> [] -> Forall (usable n vals) gs -> Forall dense_gate gs -> Forall noise_ok gs ->
    (forall g, In g gs -> names_of_gate g <> [] -> plain_rotation g) -> (forall name, In name (map fst vals) -> In name (flat_map names_of_gate gs)) ->
    state_of n st -> diagonalised w n K ev V -> 0 < k ->
    (forall v, jointly_measured w n v V (l :: ls) (K :: Ks) (ev :: evs) /\ Forall2 (readable w n v st gs) (l :: ls) (K :: Ks)) ->
    (forall gs' v out key', shifted_evaluation vals gs gs' v -> run w (OSeq (map OGate gs')) st v = Ok (Some out) ->
       fair_sampling Om key' (outcome_distribution n (entry V) out) k /\ independent_draws Om key' (outcome_distribution n (entry V) out) k) ->
    Forall2 within B (ev :: evs) -> length tangents = length vals -> (forall i j, uuid i = uuid j -> i = j) ->
    exists fwd est grads, (forall ch, expectation (with_choice w ch) st circuit (l :: ls) vals GPSR (Z.of_nat k) key = Ok (fwd ch)) /\
    (forall ch, finite_shots_gpsr_jvp (with_choice w ch) st (GMany gs) (l :: ls) vals tangents k uuid split key = Ok (fwd ch, est ch) /\ length (est ch) = length (l :: ls)) /\
    length grads = length vals /\
    (forall i name, nth_error (map fst vals) i = Some name -> gradient_at (fun v => expectation w st circuit (l :: ls) v GPSR 0 key) vals name (nth i grads [])) /\
    forall j, j < length (l :: ls) ->
      let derivative := nth j (directional (length (l :: ls)) grads tangents) 0%R in
      let error ch := (nth j (est ch) 0 - derivative)%R in
      let bound := (nth j B 0 * tangent_size gs (map fst vals) tangents)%R in
      expected Om (fun ch => nth j (est ch) 0%R) = derivative /\
      (expected Om (fun ch => error ch * error ch) <= bound * bound / INR k)%R /\
      forall eps, (0 < eps)%R -> (expected Om (fun ch => if Rle_dec eps (Rabs (error ch)) then 1 else 0) <= bound * bound / INR k / (eps * eps))%R.
Proof. exact c122_jvp_all. Qed.
Print Assumptions C122_finite_shots_jvp_concentrates.
(** backward differentiation: the same for the gradient summed over the observables *)
Theorem C122_finite_shots_gradient_concentrates : forall w n vals circuit gs st l K ev V ls Ks evs B k split key Om,
    set_order (set_iter w) -> numeric_values vals -> vals <> [] -> sequence_of circuit gs -> gs <> [] -> Forall (usable n vals) gs -> Forall dense_gate gs -> Forall noise_ok gs -> Forall (fun g => gclass g <> KPhase) gs ->
    (forall g, In g gs -> names_of_gate g <> [] -> plain_rotation g) -> (forall name, In name (map fst vals) -> In name (flat_map names_of_gate gs)) ->
    state_of n st -> diagonalised w n K ev V -> 0 < k ->
    (forall v, jointly_measured w n v V (l :: ls) (K :: Ks) (ev :: evs) /\ Forall2 (readable w n v st gs) (l :: ls) (K :: Ks)) ->
    (forall gs' v out key', shifted_evaluation vals gs gs' v -> run w (OSeq (map OGate gs')) st v = Ok (Some out) ->
       fair_sampling Om key' (outcome_distribution n (entry V) out) k /\ independent_draws Om key' (outcome_distribution n (entry V) out) k) ->
    Forall2 within B (ev :: evs) ->
    exists est grads, (forall ch, finite_shots_gpsr_bwd (with_choice w ch) st (GMany gs) (l :: ls) vals k split key = Ok (est ch) /\ length (est ch) = length vals) /\
    length grads = length vals /\
    forall i name, nth_error (map fst vals) i = Some name ->
      gradient_at (fun v => expectation w st circuit (l :: ls) v GPSR 0 key) vals name (nth i grads []) /\
      let derivative := total (nth i grads []) in
      let error ch := (nth i (est ch) 0 - derivative)%R in
      let bound := (total B * INR (uses gs name))%R in
      expected Om (fun ch => nth i (est ch) 0%R) = derivative /\
      (expected Om (fun ch => error ch * error ch) <= bound * bound / INR k)%R /\
      forall eps, (0 < eps)%R -> (expected Om (fun ch => if Rle_dec eps (Rabs (error ch)) then 1 else 0) <= bound * bound / INR k / (eps * eps))%R.
Proof. exact c122_bwd_all. Qed.
Print Assumptions C122_finite_shots_gradient_concentrates.
(** the common part of the examples: two rotations with the same parameter, seven shots *)
Definition nm (i : nat) : string := string_of_list_ascii (repeat Ascii.zero i).
Example nm_injective : forall i j, nm i = nm j -> i = j.
Proof.
  intros i j E. apply (f_equal list_ascii_of_string) in E. unfold nm in E. rewrite !list_ascii_of_string_of_list_ascii in E.
  apply (f_equal (@length _)) in E. rewrite !repeat_length in E. exact E.
Qed.
Example rxs_readings : forall v, jointly_measured pauli_world 1 v VZ [z0_obs] [oZ] [pm1] /\ Forall2 (readable pauli_world 1 v (SDense (zero_state 1)) rxs) [z0_obs] [oZ].
Proof.
  intro v. split; [econstructor; [exact (z0_obs_on pauli_world 1 v (le_n 1))|exact pauli_world_Z|apply same_columns_refl|constructor]|].
  apply Forall2_cons; [|apply Forall2_nil]. split; [exists false; exact (z0_obs_on pauli_world 1 v (le_n 1))|]. intro M. exfalso. revert M. apply no_mix. repeat (apply Forall_cons; [reflexivity|]). apply Forall_nil.
Qed.
Example rxs_fair : forall x, exists Om, forall gs' v out key', shifted_evaluation [("a"%string, VNum x)] rxs gs' v -> run pauli_world (OSeq (map OGate gs')) (SDense (zero_state 1)) v = Ok (Some out) ->
    fair_sampling Om key' (outcome_distribution 1 (entry VZ) out) 7 /\ independent_draws Om key' (outcome_distribution 1 (entry VZ) out) 7.
Proof.
  intro x.
  assert (FD : Forall dense_gate rxs) by (repeat (apply Forall_cons; [reflexivity|]); apply Forall_nil).
  assert (FN : Forall noise_ok rxs) by (repeat (apply Forall_cons; [exact Logic.I|]); apply Forall_nil).
  assert (NP : Forall (fun g => gclass g <> KPhase) rxs) by (repeat (apply Forall_cons; [discriminate|]); apply Forall_nil).
  assert (PH : physical 1 (SDense (zero_state 1))) by (unfold physical, norm2; lazy -[Rplus Rmult Ropp Rminus IZR]; ring).
  apply c80_fair_exist.
  intros gs' v out S E. destruct (shifted_usable 1 [("a"%string, VNum x)] rxs gs' v NP (rxs_usable x []) FD FN) as (A1 & A2 & A3 & A4 & _); [discriminate|exact S|].
  destruct (c51_value pauli_world 1 v (OSeq (map OGate gs')) gs' (SDense (zero_state 1)) z0_obs oZ pm1 VZ [] [] [] AD 7 0 pauli_world_order (seq_sequence gs') A4 A1 A2 A3) as (out' & E' & _ & _ & _ & _ & PD & _);
    [split; reflexivity|exact pauli_world_Z|apply rxs_readings|left; reflexivity|lia|]. rewrite E in E'. injection E' as <-. apply PD; exact PH.
Qed.
Example pm1_within : Forall2 within [1%R] [pm1].
Proof. constructor; [|constructor]. unfold within, pm1. repeat (apply Forall_cons; [|]); try apply Forall_nil; unfold Rabs; destruct (Rcase_abs _); lra. Qed.
(** with 7 shots and tangent 3, the estimate of 3 times -2 sin(2x) has mean squared error at most (3*2)^2/7, for both rules (the second without the tangent) *)
Example C122_example : forall x split, exists fwd est bwd Om,
    (forall ch, finite_shots_gpsr_jvp (with_choice pauli_world ch) (SDense (zero_state 1)) (GMany rxs) [z0_obs] [("a"%string, VNum x)] [3%R] 7 nm split 0 = Ok (fwd ch, est ch)) /\
    (forall ch, finite_shots_gpsr_bwd (with_choice pauli_world ch) (SDense (zero_state 1)) (GMany rxs) [z0_obs] [("a"%string, VNum x)] 7 split 0 = Ok (bwd ch)) /\
    expected Om (fun ch => nth 0 (est ch) 0%R) = (-6 * sin (2 * x))%R /\
    (expected Om (fun ch => (nth 0 (est ch) 0 - -6 * sin (2 * x)) * (nth 0 (est ch) 0 - -6 * sin (2 * x))) <= 36 / 7)%R /\
    (expected Om (fun ch => (nth 0 (bwd ch) 0 - -2 * sin (2 * x)) * (nth 0 (bwd ch) 0 - -2 * sin (2 * x))) <= 4 / 7)%R.
Proof.
  intros x split. destruct (rxs_fair x) as (Om & HF).
  assert (FD : Forall dense_gate rxs) by (repeat (apply Forall_cons; [reflexivity|]); apply Forall_nil).
  assert (FN : Forall noise_ok rxs) by (repeat (apply Forall_cons; [exact Logic.I|]); apply Forall_nil).
  assert (NP : Forall (fun g => gclass g <> KPhase) rxs) by (repeat (apply Forall_cons; [discriminate|]); apply Forall_nil).
  assert (NV : numeric_values [("a"%string, VNum x)]) by (split; [repeat constructor; intros []|apply Forall_cons; [eexists; reflexivity|apply Forall_nil]]).
  assert (AR : forall g, In g rxs -> names_of_gate g <> [] -> plain_rotation g) by (intros g [<-|[<-|[]]] _; (split; [reflexivity|split; [left; reflexivity|apply cq_none]])).
  assert (AL : forall name, In name (map fst [("a"%string, VNum x)]) -> In name (flat_map names_of_gate rxs)) by (intros name [<-|[]]; left; reflexivity).
  destruct (C122_finite_shots_jvp_concentrates pauli_world 1 [("a"%string, VNum x)] (seq_oper rxs) rxs (SDense (zero_state 1)) z0_obs oZ pm1 VZ [] [] [] [1%R] 7 [3%R] nm split 0 Om
    pauli_world_order NV ltac:(discriminate) (seq_sequence rxs) ltac:(discriminate) (rxs_usable x []) FD FN AR AL ltac:(split; reflexivity) pauli_world_Z ltac:(lia) rxs_readings HF pm1_within eq_refl nm_injective)
    as (fwd & est & grads & _ & E2 & L3 & E4 & E5).
  destruct (C122_finite_shots_gradient_concentrates pauli_world 1 [("a"%string, VNum x)] (seq_oper rxs) rxs (SDense (zero_state 1)) z0_obs oZ pm1 VZ [] [] [] [1%R] 7 split 0 Om
    pauli_world_order NV ltac:(discriminate) (seq_sequence rxs) ltac:(discriminate) (rxs_usable x []) FD FN NP AR AL ltac:(split; reflexivity) pauli_world_Z ltac:(lia) rxs_readings HF pm1_within)
    as (bwd & grads' & F1 & L4 & F2).
  destruct grads as [|d [|? ?]]; try discriminate. destruct grads' as [|d' [|? ?]]; try discriminate.
  specialize (E4 0 "a"%string eq_refl). destruct (F2 0 "a"%string eq_refl) as [F3 F4]. cbn [nth] in E4, F3, F4.
  rewrite (gradient_unique _ _ _ _ _ E4 (rxs_gradient pauli_world x [])) in E5. rewrite (gradient_unique _ _ _ _ _ F3 (rxs_gradient pauli_world x [])) in F4.
  specialize (E5 0 Nat.lt_0_1). destruct E5 as (M1 & M2 & _). destruct F4 as (_ & M4 & _).
  set (two := INR (uses rxs "a")) in *. assert (Two : two = 2%R) by (unfold two; replace (uses rxs "a") with 2 by reflexivity; reflexivity). clearbody two.
  set (seven := INR 7) in *. assert (Seven : seven = 7%R) by (unfold seven; cbn [INR]; ring). clearbody seven.
  exists fwd, est, bwd, Om. split; [apply E2|split; [apply F1|]].
  assert (D1 : nth 0 (directional 1 [[(-2 * sin (2 * x))%R]] [3%R]) 0%R = (-6 * sin (2 * x))%R) by (unfold directional; cbn [seq map nth combine rsum fst snd]; ring).
  assert (D2 : total [(-2 * sin (2 * x))%R] = (-2 * sin (2 * x))%R) by (unfold total; cbn [rsum]; ring).
  assert (D3 : total [1%R] = 1%R) by (unfold total; cbn [rsum]; ring).
  assert (D4 : tangent_size rxs ["a"%string] [3%R] = 6%R).
  { unfold tangent_size; cbn [combine rsum fst snd]. replace (uses rxs "a") with 2 by reflexivity. rewrite Rabs_pos_eq by lra. cbn [INR]; ring. }
  cbn [map fst nth length] in M1, M2. rewrite D1 in M1, M2. rewrite D4, Seven in M2. rewrite D2, D3, Two, Seven in M4.
  split; [exact M1|split; [eapply Rle_trans; [exact M2|lra]|eapply Rle_trans; [exact M4|lra]]].
Qed.
