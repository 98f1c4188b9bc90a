(** * C52-C58: gradients by the parameter-shift rule (GPSR) and the adjoint rule.

    The vocabulary is in Spec.v, GateSpec.v, PropSpec.v, NoiseSpec.v, SampleSpec.v, ExpectSpec.v and GpsrSpec.v.
    [analytical_gpsr_bwd] returns, for each value, the gradient summed over the observables; [analytical_gpsr_jvp] the
    expectations and their derivative along the tangents.  Every theorem is followed by an example that meets its hypotheses. *)
From Coq Require Import String List Arith Bool Reals Lia Lra ZArith.
From Verif Require Import Cplx Py Ndarray OperatorUtils ApplyOperator Sparse Matrices Noise Gates Apply Composite Conversion Shots Gpsr Api
  Spec GateSpec PropSpec NoiseSpec SampleSpec ExpectSpec GpsrSpec SpecFacts NoiseThm ExpectThm2 GpsrThm GpsrThm2 GpsrThm3 Examples.
Import ListNotations.
Local Open Scope nat_scope.

(** C52 *)
Theorem C52_gpsr_gradient_is_the_derivative : forall w n vals circuit gs st obs key,
    set_order (set_iter w) -> numeric_values vals -> vals <> [] -> sequence_of circuit gs -> gs <> [] ->
    Forall (usable n vals) gs -> Forall dense_gate gs -> Forall noise_ok gs -> state_of n st -> obs <> [] -> used_once gs ->
    (forall name t, In name (map fst vals) -> exists Ks, Forall2 (readable w n (at_value vals name t) st gs) obs Ks) ->
    exists fwd grads, expectation w st circuit obs vals GPSR 0 key = Ok fwd /\ length grads = length vals /\
      (forall k name, nth_error (map fst vals) k = Some name -> rotation_only gs name ->
        (exists Ks, forall t, Forall2 (readable w n (at_value vals name t) st gs) obs Ks) ->
        gradient_at (fun v => expectation w st circuit obs v GPSR 0 key) vals name (nth k grads [])) /\
      (Forall (fun g => gclass g <> KPhase) gs -> analytical_gpsr_bwd w st (GMany gs) obs vals = Ok (map total grads)) /\
      (forall tangents uuid, length tangents = length vals ->
        analytical_gpsr_jvp w st (GMany gs) obs vals tangents uuid = Ok (fwd, directional (length obs) grads tangents)).
Proof. exact c52_exact. Qed.
Print Assumptions C52_gpsr_gradient_is_the_derivative.
Example C52_example : exists fwd grads, length grads = 2 /\
    expectation ex_world (SDense (basis [0; 0; 0])) (OQC 3 (map OGate ex_circuit) []) [z0_obs; x0_obs] ex_values GPSR 0 0 = Ok fwd /\
    gradient_at (fun v => expectation ex_world (SDense (basis [0; 0; 0])) (OQC 3 (map OGate ex_circuit) []) [z0_obs; x0_obs] v GPSR 0 0) ex_values "a" (nth 0 grads []) /\
    (forall t u uuid, analytical_gpsr_jvp ex_world (SDense (basis [0; 0; 0])) (GMany ex_circuit) [z0_obs; x0_obs] ex_values [t; u] uuid = Ok (fwd, directional 2 grads [t; u])).
Proof.
  assert (NM : ~ mixes (SDense (basis [0; 0; 0])) ex_circuit) by (apply no_mix; unfold ex_circuit; repeat (apply Forall_cons; [reflexivity|]); apply Forall_nil).
  assert (RD : forall v, Forall2 (readable ex_world 3 v (SDense (basis [0; 0; 0])) ex_circuit) [z0_obs; x0_obs] [ksum [gate_op Z_matrix [] [0]]; ksum [gate_op X_matrix [] [0]]]).
  { intro v. apply Forall2_cons; [|apply Forall2_cons; [|apply Forall2_nil]]; (split; [exists false|intro M; contradiction]); [apply z0_obs_on|apply x0_obs_on]; lia. }
  destruct (C52_gpsr_gradient_is_the_derivative ex_world 3 ex_values (OQC 3 (map OGate ex_circuit) []) ex_circuit (SDense (basis [0; 0; 0])) [z0_obs; x0_obs] 0)
    as (fwd & grads & E1 & E2 & E3 & _ & E5);
    [exact ex_world_order|split; [cbn; repeat constructor; simpl; intuition discriminate|repeat (apply Forall_cons; [eexists; reflexivity|]); apply Forall_nil]|discriminate|exact ex_circuit_sequence|discriminate|exact ex_circuit_usable
    |exact ex_circuit_dense|exact ex_circuit_ok|exact ex_basis|discriminate|unfold used_once; cbn; repeat constructor; simpl; intuition discriminate|intros name t _; eexists; apply RD|].
  exists fwd, grads. split; [exact E2|split; [exact E1|split; [|intros t u uuid; apply E5; reflexivity]]].
  apply (E3 0); [reflexivity| |eexists; intro; apply RD].
  intros g IG IN. unfold ex_circuit in IG. clear -IG IN. destruct IG as [<-|[<-|[<-|[<-|[]]]]]; [|destruct IN|destruct IN|destruct IN as [Q|[]]; discriminate Q].
  split; [reflexivity|split; [right; left; reflexivity|apply cq_default]].
Qed.

(** C53: a value used by several gates *)
Theorem C53_gpsr_repeated_gradient_is_the_derivative : forall w n vals circuit gs st obs Ks key,
    set_order (set_iter w) -> numeric_values vals -> vals <> [] -> sequence_of circuit gs -> gs <> [] ->
    Forall (usable n vals) gs -> Forall dense_gate gs -> Forall noise_ok gs -> state_of n st -> obs <> [] ->
    (forall v, Forall2 (readable w n v st gs) obs Ks) ->
    (forall g, In g gs -> names_of_gate g <> [] -> plain_rotation g) ->
    (forall name, In name (map fst vals) -> In name (flat_map names_of_gate gs)) -> ~ used_once gs ->
    exists fwd grads, expectation w st circuit obs vals GPSR 0 key = Ok fwd /\ length grads = length vals /\
      (forall k name, nth_error (map fst vals) k = Some name ->
        gradient_at (fun v => expectation w st circuit obs v GPSR 0 key) vals name (nth k grads [])) /\
      (Forall (fun g => gclass g <> KPhase) gs -> analytical_gpsr_bwd w st (GMany gs) obs vals = Ok (map total grads)) /\
      (forall tangents uuid, length tangents = length vals -> (forall i j, uuid i = uuid j -> i = j) ->
        analytical_gpsr_jvp w st (GMany gs) obs vals tangents uuid = Ok (fwd, directional (length obs) grads tangents)).
Proof. exact c53_exact. Qed.
Print Assumptions C53_gpsr_repeated_gradient_is_the_derivative.
(** two RX gates with the same angle: the expectation of Z is cos(2x) *)
Example C53_example : forall x, analytical_gpsr_bwd ex_world (SDense (zero_state 1)) (GMany rxs) [z0_obs] [("a"%string, VNum x)] = Ok [(-2 * sin (2 * x))%R].
Proof.
  intro x. destruct (C53_gpsr_repeated_gradient_is_the_derivative ex_world 1 [("a"%string, VNum x)] (seq_oper rxs) rxs (SDense (zero_state 1)) [z0_obs] [ksum [gate_op Z_matrix [] [0]]] 0)
    as (fwd & grads & _ & LG & GR & BW & _).
  - exact ex_world_order.
  - split; [repeat constructor; intros []|]. apply Forall_cons; [eexists; reflexivity|apply Forall_nil].
  - discriminate.
  - apply seq_sequence.
  - discriminate.
  - apply rxs_usable.
  - apply Forall_cons; [reflexivity|apply Forall_cons; [reflexivity|apply Forall_nil]].
  - apply Forall_cons; [exact Logic.I|apply Forall_cons; [exact Logic.I|apply Forall_nil]].
  - split; reflexivity.
  - discriminate.
  - intro v. apply Forall2_cons; [|apply Forall2_nil]. split; [exists false; apply z0_obs_on; lia|]. intro M. exfalso. revert M. apply no_mix. repeat (apply Forall_cons; [reflexivity|]). apply Forall_nil.
  - intros g [<-|[<-|[]]] _; (split; [reflexivity|split; [left; reflexivity|apply cq_none]]).
  - intros name [<-|[]]. left; reflexivity.
  - intro ND. inversion ND as [|? ? NI _]; subst. apply NI. left; reflexivity.
  - destruct grads as [|d [|? ?]]; try discriminate. specialize (GR 0 "a"%string eq_refl). cbn [nth] in GR.
    rewrite (gradient_unique _ _ _ _ _ GR (rxs_gradient ex_world x [])) in BW. rewrite BW; [unfold total; cbn [map rsum]; rewrite Rplus_0_r; reflexivity|].
    repeat (apply Forall_cons; [discriminate|]). apply Forall_nil.
Qed.

(** C54: controlled rotations.  Exact when the state the gate acts on has no coherence between the control values; wrong in general. *)
Theorem C54_gpsr_controlled_rotation_partial : forall w n vals circuit gs1 g gs2 cs name st obs key k,
    set_order (set_iter w) -> numeric_values vals -> sequence_of circuit (gs1 ++ g :: gs2) ->
    Forall (usable n vals) (gs1 ++ g :: gs2) -> Forall dense_gate (gs1 ++ g :: gs2) -> Forall noise_ok (gs1 ++ g :: gs2) ->
    state_of n st -> obs <> [] -> used_once (gs1 ++ g :: gs2) ->
    (forall name t, In name (map fst vals) -> exists Ks, Forall2 (readable w n (at_value vals name t) st (gs1 ++ g :: gs2)) obs Ks) ->
    gclass g = KParam -> gparam g = PName name -> control_qubits (control g) cs ->
    (forall r, noisy_run n vals gs1 (density_of st) r -> control_incoherent n cs r) ->
    nth_error (map fst vals) k = Some name -> (exists Ks, forall t, Forall2 (readable w n (at_value vals name t) st (gs1 ++ g :: gs2)) obs Ks) ->
    exists fwd grads, expectation w st circuit obs vals GPSR 0 key = Ok fwd /\ length grads = length vals /\
      gradient_at (fun v => expectation w st circuit obs v GPSR 0 key) vals name (nth k grads []) /\
      (Forall (fun g => gclass g <> KPhase) (gs1 ++ g :: gs2) -> analytical_gpsr_bwd w st (GMany (gs1 ++ g :: gs2)) obs vals = Ok (map total grads)) /\
      (forall tangents uuid, length tangents = length vals ->
        analytical_gpsr_jvp w st (GMany (gs1 ++ g :: gs2)) obs vals tangents uuid = Ok (fwd, directional (length obs) grads tangents)).
Proof. exact c54_incoherent. Qed.
Print Assumptions C54_gpsr_controlled_rotation_partial.
Example C54_partial_example : exists fwd grads,
    expectation ex_world (SDense (basis [1; 0])) (OSeq [OGate crx]) [z0_obs] [("a"%string, VNum 1)] GPSR 0 0 = Ok fwd /\
    gradient_at (fun v => expectation ex_world (SDense (basis [1; 0])) (OSeq [OGate crx]) [z0_obs] v GPSR 0 0) [("a"%string, VNum 1)] "a" (nth 0 grads []).
Proof.
  assert (NM : ~ mixes (SDense (basis [1; 0])) ([] ++ crx :: [])) by (apply no_mix; repeat (apply Forall_cons; [reflexivity|]); apply Forall_nil).
  assert (RD : forall v, Forall2 (readable ex_world 2 v (SDense (basis [1; 0])) ([] ++ crx :: [])) [z0_obs] [ksum [gate_op Z_matrix [] [0]]]).
  { intro v. apply Forall2_cons; [|apply Forall2_nil]; (split; [exists false|intro M; contradiction]); apply z0_obs_on; lia. }
  destruct (C54_gpsr_controlled_rotation_partial ex_world 2 [("a"%string, VNum 1)] (OSeq [OGate crx]) [] crx [] [0] "a" (SDense (basis [1; 0])) [z0_obs] 0 0) as (fwd & grads & E1 & _ & E2 & _).
  - exact ex_world_order.
  - split; [repeat constructor; intros []|]. apply Forall_cons; [eexists; reflexivity|apply Forall_nil].
  - apply (seq_sequence [crx]).
  - apply Forall_cons; [|apply Forall_nil].
    exists (RX_matrix (1 + 0)), [0], [1]. split; [eapply gm_rotation with (R_ := RX_matrix); simpl; eauto; eexists; split; reflexivity|apply (cq_ints [0])|reflexivity|in_range].
  - apply Forall_cons; [reflexivity|apply Forall_nil].
  - apply Forall_cons; [exact Logic.I|apply Forall_nil].
  - split; reflexivity.
  - discriminate.
  - repeat constructor; intros [].
  - intros name t _; eexists; apply RD.
  - reflexivity.
  - reflexivity.
  - apply (cq_ints [0]).
  - intros r HR. inversion HR; subst. intros x y Hx Hy D. simpl in Hx, Hy. intuition subst; cbn in D; try (contradict D; reflexivity);
      unfold density_of, pure_density; lazy -[Rplus Rmult Ropp Rminus IZR]; f_equal; ring.
  - reflexivity.
  - eexists; intro; apply RD.
  - exists fwd, grads; split; [exact E1|exact E2].
Qed.
(** The controlled rotation of qubit 1 by qubit 0 in |+>|+>, with X measured on qubit 0: the expectation is cos(a/2), whose derivative at
    a = pi is -1/2, and GPSR returns -sqrt(2)/2. *)
Theorem C54_gpsr_controlled_rotation_refuted : forall w, exists psi g obs K vals d d',
    is_state 2 psi /\ usable 2 vals g /\ dense_gate g /\ noiseless g /\ gclass g = KParam /\ control_qubits (control g) [0] /\
    (forall v, Forall2 (readable w 2 v (SDense psi) [g]) [obs] [K]) /\
    gradient_at (fun v => expectation w (SDense psi) (OSeq [OGate g]) [obs] v GPSR 0 0) vals "a"%string [d] /\
    analytical_gpsr_bwd w (SDense psi) (GMany [g]) [obs] vals = Ok [d'] /\ d <> d' /\
    (forall uuid, exists fwd, analytical_gpsr_jvp w (SDense psi) (GMany [g]) [obs] vals [1%R] uuid = Ok (fwd, [d'])).
Proof. exact c54_refuted. Qed.
Print Assumptions C54_gpsr_controlled_rotation_refuted.

(** C55: values no gate and no observable reads *)
Theorem C55_gpsr_unused_value_partial : forall w n st gs obs vals k v,
    Forall (usable n vals) gs -> used_once gs -> vals <> [] ->
    ~ In k (map fst vals) -> ~ In k (flat_map names_of_gate gs ++ flat_map names_of (List.concat obs)) ->
    (forall tangents uuid fwd d t, length tangents = length vals ->
       analytical_gpsr_jvp w st (GMany gs) obs vals tangents uuid = Ok (fwd, d) ->
       analytical_gpsr_jvp w st (GMany gs) obs (vals ++ [(k, VNum v)]) (tangents ++ [t]) uuid = Ok (fwd, d)) /\
    (forall fwd ds, analytical_expectation w st (GMany gs) obs vals = Ok fwd ->
       analytical_gpsr_bwd w st (GMany gs) obs vals = Ok ds ->
       analytical_gpsr_bwd w st (GMany gs) obs (vals ++ [(k, VNum v)]) = Ok (ds ++ [0%R])).
Proof. exact c55_once. Qed.
Print Assumptions C55_gpsr_unused_value_partial.
Example C55_partial_example : exists d,
    analytical_gpsr_bwd ex_world (SDense plus2) (GMany [crx]) [x0_obs] [("a"%string, VNum 1)] = Ok [d] /\
    analytical_gpsr_bwd ex_world (SDense plus2) (GMany [crx]) [x0_obs] [("a"%string, VNum 1); ("b"%string, VNum 7)] = Ok [d; 0%R].
Proof.
  assert (U : Forall (usable 2 [("a"%string, VNum 1)]) [crx]).
  { apply Forall_cons; [|apply Forall_nil].
    exists (RX_matrix (1 + 0)), [0], [1]. split; [eapply gm_rotation with (R_ := RX_matrix); simpl; eauto; eexists; split; reflexivity|apply (cq_ints [0])|reflexivity|in_range]. }
  assert (E : exists d, analytical_gpsr_bwd ex_world (SDense plus2) (GMany [crx]) [x0_obs] [("a"%string, VNum 1)] = Ok [d]).
  { unfold analytical_gpsr_bwd, gpsr_bwd. cbn [map fst]. change (gpsr_branch (GMany [crx]) ["a"%string]) with CaseSimple. cbn [length seq combine mapM snd]. unfold jvp_component.
    rewrite !(bump_ok _ "a" 1) by reflexivity. cbn [bind].
    assert (AV : forall t, at_value [("a"%string, VNum 1)] "a" t = [("a"%string, VNum t)]) by reflexivity.
    assert (JE : forall v k, jitted (analytical_eval ex_world (SDense plus2) [x0_obs]) (GMany [crx]) v k = analytical_expectation ex_world (SDense plus2) (GMany [crx]) [x0_obs] v) by reflexivity.
    rewrite !AV, !JE, !eval_crx. cbn [bind]. unfold default_gap. rewrite shift_rules_2. eexists; reflexivity. }
  destruct E as (d & E). exists d. split; [exact E|].
  destruct (C55_gpsr_unused_value_partial ex_world 2 (SDense plus2) [crx] [x0_obs] [("a"%string, VNum 1)] "b" 7%R U) as [_ B];
    [repeat constructor; intros []|discriminate|intros [Q|[]]; discriminate|cbn; intuition discriminate|].
  exact (B _ _ (eval_crx ex_world 1) E).
Qed.
(** Two RX gates with the angle [a]: with the single value [a], GPSR is right; with an extra value that nothing uses, it returns 0. *)
Theorem C55_gpsr_unused_value_refuted : forall w x y, set_order (set_iter w) ->
    Forall (usable 1 [("a"%string, VNum x)]) rxs /\
    gradient_at (fun v => expectation w (SDense (zero_state 1)) (seq_oper rxs) [z0_obs] v GPSR 0 0) [("a"%string, VNum x)] "a"%string [(-2 * sin (2 * x))%R] /\
    gradient_at (fun v => expectation w (SDense (zero_state 1)) (seq_oper rxs) [z0_obs] v GPSR 0 0) [("a"%string, VNum x); ("b"%string, VNum y)] "a"%string [(-2 * sin (2 * x))%R] /\
    analytical_gpsr_bwd w (SDense (zero_state 1)) (GMany rxs) [z0_obs] [("a"%string, VNum x)] = Ok [(-2 * sin (2 * x))%R] /\
    analytical_gpsr_bwd w (SDense (zero_state 1)) (GMany rxs) [z0_obs] [("a"%string, VNum x); ("b"%string, VNum y)] = Ok [0%R; 0%R].
Proof. exact c55_refuted. Qed.
Print Assumptions C55_gpsr_unused_value_refuted.
Example C55_refuted_example : set_order (set_iter ex_world) /\ (-2 * sin (2 * (PI / 4)) = -2)%R.
Proof. split; [exact ex_world_order|]. replace (2 * (PI / 4))%R with (PI / 2)%R by field. rewrite sin_PI2. ring. Qed.
(** With more uses of names than values, an unused value makes both rules fail. *)
Theorem C55_gpsr_unused_value_error_refuted : forall w n st gs obs vals k,
    Forall (usable n vals) gs -> In k (map fst vals) -> ~ In k (flat_map names_of_gate gs) -> length vals < length (flat_map names_of_gate gs) ->
    (exists e, analytical_gpsr_bwd w st (GMany gs) obs vals = Err e) /\
    (forall tangents uuid, exists e, analytical_gpsr_jvp w st (GMany gs) obs vals tangents uuid = Err e).
Proof. exact c55_error. Qed.
Print Assumptions C55_gpsr_unused_value_error_refuted.
Example C55_error_example : let gs := rxs ++ rxs in let vals := [("a"%string, VNum 1); ("b"%string, VNum 1)] in
    Forall (usable 1 vals) gs /\ In "b"%string (map fst vals) /\ ~ In "b"%string (flat_map names_of_gate gs) /\ length vals < length (flat_map names_of_gate gs).
Proof.
  split; [apply Forall_app; split; apply rxs_usable|split; [right; left; reflexivity|split; [cbn; intuition discriminate|cbn; lia]]].
Qed.

(** C56: PHASE gates.  The forward rule is right if no name is shared; the reverse rule fails; sharing the name gives a wrong result. *)
Theorem C56_gpsr_phase_partial : forall w n vals circuit gs st obs key,
    set_order (set_iter w) -> numeric_values vals -> vals <> [] -> sequence_of circuit gs -> gs <> [] ->
    Forall (usable n vals) gs -> Forall dense_gate gs -> Forall noise_ok gs -> state_of n st -> obs <> [] -> used_once gs ->
    (forall name t, In name (map fst vals) -> exists Ks, Forall2 (readable w n (at_value vals name t) st gs) obs Ks) ->
    exists fwd grads, expectation w st circuit obs vals GPSR 0 key = Ok fwd /\ length grads = length vals /\
      (forall k name, nth_error (map fst vals) k = Some name -> phase_or_rotation_only gs name ->
        (exists Ks, forall t, Forall2 (readable w n (at_value vals name t) st gs) obs Ks) ->
        gradient_at (fun v => expectation w st circuit obs v GPSR 0 key) vals name (nth k grads [])) /\
      (forall tangents uuid, length tangents = length vals ->
        analytical_gpsr_jvp w st (GMany gs) obs vals tangents uuid = Ok (fwd, directional (length obs) grads tangents)).
Proof. exact c56_once. Qed.
Print Assumptions C56_gpsr_phase_partial.
Example C56_partial_example : exists fwd grads, forall t uuid,
    analytical_gpsr_jvp ex_world (SDense tilted) (GMany [PHASE (PName "a") (TInt 0) INone None false]) [x0_obs] [("a"%string, VNum 1)] [t] uuid = Ok (fwd, directional 1 grads [t]) /\
    gradient_at (fun v => expectation ex_world (SDense tilted) (seq_oper [PHASE (PName "a") (TInt 0) INone None false]) [x0_obs] v GPSR 0 0) [("a"%string, VNum 1)] "a" (nth 0 grads []).
Proof.
  set (g := PHASE (PName "a") (TInt 0) INone None false).
  assert (NM : ~ mixes (SDense tilted) [g]) by (apply no_mix; repeat (apply Forall_cons; [reflexivity|]); apply Forall_nil).
  assert (RD : forall v, Forall2 (readable ex_world 1 v (SDense tilted) [g]) [x0_obs] [ksum [gate_op X_matrix [] [0]]]).
  { intro v. apply Forall2_cons; [|apply Forall2_nil]; (split; [exists false|intro M; contradiction]); apply x0_obs_on; lia. }
  destruct (C56_gpsr_phase_partial ex_world 1 [("a"%string, VNum 1)] (seq_oper [g]) [g] (SDense tilted) [x0_obs] 0) as (fwd & grads & _ & _ & E1 & E2).
  - exact ex_world_order.
  - split; [repeat constructor; intros []|]. apply Forall_cons; [eexists; reflexivity|apply Forall_nil].
  - discriminate.
  - apply seq_sequence.
  - discriminate.
  - apply Forall_cons; [|apply Forall_nil].
    exists (PHASE_matrix (1 + 0)), [], [0]. split; [apply gm_PHASE; [reflexivity|reflexivity|eexists; split; reflexivity]|apply cq_none|reflexivity|in_range].
  - apply Forall_cons; [reflexivity|apply Forall_nil].
  - apply Forall_cons; [exact Logic.I|apply Forall_nil].
  - split; reflexivity.
  - discriminate.
  - repeat constructor; intros [].
  - intros name t _; eexists; apply RD.
  - exists fwd, grads. intros t uuid. split; [apply E2; reflexivity|]. apply (E1 0); [reflexivity| |eexists; intro; apply RD].
    intros h [<-|[]] _. right. split; [reflexivity|apply cq_none].
Qed.
Theorem C56_gpsr_phase_reverse_refuted : forall w n vals gs st obs g, numeric_values vals -> vals <> [] -> Forall (usable n vals) gs -> used_once gs ->
    In g gs -> gclass g = KPhase -> analytical_gpsr_bwd w st (GMany gs) obs vals = Err TypeError.
Proof. exact c56_reverse. Qed.
Print Assumptions C56_gpsr_phase_reverse_refuted.
Example C56_reverse_example : analytical_gpsr_bwd ex_world (SDense tilted) (GMany [PHASE (PName "a") (TInt 0) INone None false]) [x0_obs] [("a"%string, VNum 1)] = Err TypeError.
Proof.
  apply (C56_gpsr_phase_reverse_refuted ex_world 1 [("a"%string, VNum 1)] [PHASE (PName "a") (TInt 0) INone None false] (SDense tilted) [x0_obs] (PHASE (PName "a") (TInt 0) INone None false)).
  - split; [repeat constructor; intros []|]. apply Forall_cons; [eexists; reflexivity|apply Forall_nil].
  - discriminate.
  - apply Forall_cons; [|apply Forall_nil].
    exists (PHASE_matrix (1 + 0)), [], [0]. split; [apply gm_PHASE; [reflexivity|reflexivity|eexists; split; reflexivity]|apply cq_none|reflexivity|in_range].
  - repeat constructor; intros [].
  - left; reflexivity.
  - reflexivity.
Qed.
Theorem C56_gpsr_shared_phase_refuted : forall w x,
    Forall (usable 1 [("a"%string, VNum x)]) shared /\ is_state 1 tilted /\ norm2 1 (amp tilted) = 1%R /\ (forall i j, unary i = unary j -> i = j) /\
    gradient_at (fun v => expectation w (SDense tilted) (seq_oper shared) [x0_obs] v GPSR 0 0) [("a"%string, VNum x)] "a"%string [(- (48 / 25) * sin (2 * x))%R] /\
    analytical_gpsr_jvp w (SDense tilted) (GMany shared) [x0_obs] [("a"%string, VNum x)] [1%R] unary = Ok ([(24 / 25 * cos (2 * x))%R], [(- (24 / 25) * sin x)%R]).
Proof. exact c56_refuted. Qed.
Print Assumptions C56_gpsr_shared_phase_refuted.
(** at a = pi/2 the derivative is 0 and the forward rule returns -24/25 *)
Example C56_refuted_example : (- (48 / 25) * sin (2 * (PI / 2)) = 0 /\ - (24 / 25) * sin (PI / 2) = - (24 / 25))%R.
Proof. replace (2 * (PI / 2))%R with PI by field. rewrite sin_PI, sin_PI2. split; ring. Qed.

(** C57 *)
Theorem C57_shifted_gate : forall g s, gclass g = KParam ->
    exists g', to_shift g s = Ok g' /\ gclass g' = KParam /\ generator_name g' = generator_name g /\ gparam g' = gparam g /\
      target g' = target g /\ control g' = control g /\ noise g' = noise g /\ sparse g' = sparse g /\
      (forall name, gparam g = PName name -> forall w st vals x ot group merge, lookup vals name = Ok (VNum x) ->
         apply_gates w st (GOne g') vals ot group merge = apply_gates w st (GOne g) (at_value vals name (x + s)) ot group merge) /\
      (forall x, gparam g = PNum x -> forall w st vals ot group merge,
         apply_gates w st (GOne g') vals ot group merge =
         apply_gates w st (GOne (mkGate KParam (generator_name g) (target g) (control g) (noise g) (sparse g) (PNum (x + s)) (shift g))) vals ot group merge).
Proof. exact c57_shift. Qed.
Print Assumptions C57_shifted_gate.
Example C57_example : exists g', to_shift crx 2 = Ok g' /\
    apply_gates ex_world (SDense plus2) (GOne g') [("a"%string, VNum 1)] UNITARY false true =
    apply_gates ex_world (SDense plus2) (GOne crx) [("a"%string, VNum (1 + 2))] UNITARY false true.
Proof.
  destruct (C57_shifted_gate crx 2 eq_refl) as (g' & E & _ & _ & _ & _ & _ & _ & _ & H & _). exists g'. split; [exact E|].
  exact (H "a"%string eq_refl ex_world (SDense plus2) [("a"%string, VNum 1)] 1%R UNITARY false true eq_refl).
Qed.
Theorem C57_altered_sequence : forall gs i s g, nth_error gs i = Some g -> gclass g = KParam ->
    exists gs' g', alter_gate_sequence gs i s = Ok gs' /\ to_shift g s = Ok g' /\ length gs' = length gs /\
      forall j, nth_error gs' j = if Nat.eqb j i then Some g' else nth_error gs j.
Proof. exact c57_alter. Qed.
Print Assumptions C57_altered_sequence.
Example C57_altered_example : exists gs' g', alter_gate_sequence (rxs ++ [crx]) 2 1 = Ok gs' /\ to_shift crx 1 = Ok g' /\ nth_error gs' 2 = Some g' /\ nth_error gs' 0 = nth_error rxs 0.
Proof.
  destruct (C57_altered_sequence (rxs ++ [crx]) 2 1 crx eq_refl eq_refl) as (gs' & g' & E1 & E2 & _ & H). exists gs', g'.
  split; [exact E1|split; [exact E2|split; [exact (H 2)|exact (H 0)]]].
Qed.

(** C58: the adjoint rule.  One step of the loop, for an uncontrolled PHASE gate whose parameter is met for the first time, is right;
    the loop itself never runs a step. *)
Theorem C58_adjoint_phase_step_partial : forall w n psi p g (V : R -> values) b t gates i name tangent grads,
    is_state n psi -> is_state n p -> nth_error gates i = Some g ->
    gclass g = KPhase -> dense_gate g -> noiseless g -> List.length (target g) = 1 -> control_qubits (control g) [] -> valid_qubits n (target g) ->
    gparam g = PName name -> has_key grads name = false -> (forall s, angle (V s) g (s + b)%R) ->
    exists out p' z,
      (forall s, apply_gates w (SDense psi) (GOne g) (V s) UNITARY false true = Ok (SDense (out s))) /\
      apply_gates w (SDense p') (GOne g) (V t) UNITARY false true = Ok (SDense p) /\
      gate_bwd_apply w gates (V t) tangent i (SDense (out t), SDense p, grads) = Ok (SDense psi, SDense p', dict_set grads name (Some (tangent * z)%R)) /\
      derivable_pt_lim (fun s => (2 * re (inner_product n (amp (out s)) (amp p)))%R) t z.
Proof. exact c58_phase_step. Qed.
Print Assumptions C58_adjoint_phase_step_partial.
Example C58_partial_example : exists out p' z,
    gate_bwd_apply ex_world [PHASE (PName "a") (TInt 0) INone None false] [("a"%string, VNum 1)] 3 0 (SDense out, SDense plus1, []) =
      Ok (SDense tilted, SDense p', [("a"%string, Some (3 * z)%R)]).
Proof.
  destruct (C58_adjoint_phase_step_partial ex_world 1 tilted plus1 (PHASE (PName "a") (TInt 0) INone None false) (fun t => [("a"%string, VNum t)]) 0 1
              [PHASE (PName "a") (TInt 0) INone None false] 0 "a" 3 []) as (out & p' & z & _ & _ & E & _);
    [split; reflexivity|split; reflexivity|reflexivity|reflexivity|reflexivity|reflexivity|reflexivity|apply cq_none|in_range|reflexivity|reflexivity|intro s; eexists; split; reflexivity|].
  exists (out 1%R), p', z. exact E.
Qed.
Theorem C58_adjoint_no_gradient_refuted : forall w out p g gs vals tangent,
    adjoint_bwd w (out, Some p, g :: gs, vals) tangent = Ok (map (fun kv => (fst kv, None)) vals).
Proof. exact c58_no_gradient. Qed.
Print Assumptions C58_adjoint_no_gradient_refuted.
Example C58_refuted_example : exists x out p,
    adjoint_fwd ex_world (SDense tilted) (seq_oper shared) x0_obs [("a"%string, VNum 1)] = Ok (x, (out, Some p, shared, [("a"%string, VNum 1)])).
Proof. do 3 eexists. lazy -[Rplus Rmult Ropp Rminus IZR Rdiv Rinv cos sin]. reflexivity. Qed.
