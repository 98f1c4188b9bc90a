(** * C124: two programs whose expectations agree at enough values of the parameters agree at all values.

    The vocabulary is in Spec.v, GateSpec.v, PropSpec.v, ExpectSpec.v, GpsrSpec.v, PhysSpec.v, TrigSpec.v and InterpSpec.v. *)
From Coq Require Import String List Arith Bool Reals Lia Lra ZArith.
From Verif Require Import Cplx Py Ndarray OperatorUtils ApplyOperator Sparse Matrices Noise Gates Apply Composite Conversion Shots Gpsr Api
  Spec GateSpec PropSpec NoiseSpec SampleSpec ExpectSpec GpsrSpec StructSpec PhysSpec TrigSpec InterpSpec SpecFacts NoiseThm ExpectThm2 GpsrThm GpsrThm2 GpsrThm3 InterpThm Examples.
Import ListNotations.
Local Open Scope nat_scope.

(** one circuit, state and list of observables against another: agreement on a grid is agreement everywhere *)
Theorem C124_agreement_on_a_grid_is_agreement : forall w n vals c gs st obs Ks n' c' gs' st' obs' Ks' mode mode' key key' grid, set_order (set_iter w) -> flat_values vals ->
    NoDup (map fst grid) -> incl (map fst grid) (map fst vals) -> Forall (enough_values gs gs') grid ->
    runnable n vals c gs -> state_of n st -> obs <> [] -> exact_mode mode ->
    (forall a, map fst a = map fst grid -> Forall2 (readable w n (at_values vals a) st gs) obs Ks) ->
    runnable n' vals c' gs' -> state_of n' st' -> obs' <> [] -> exact_mode mode' ->
    (forall a, map fst a = map fst grid -> Forall2 (readable w n' (at_values vals a) st' gs') obs' Ks') ->
    (forall a, on_grid a grid -> expectation w st c obs (at_values vals a) mode 0 key = expectation w st' c' obs' (at_values vals a) mode' 0 key') ->
    forall a, map fst a = map fst grid -> expectation w st c obs (at_values vals a) mode 0 key = expectation w st' c' obs' (at_values vals a) mode' 0 key'.
Proof. exact c124_grid. Qed.
Print Assumptions C124_agreement_on_a_grid_is_agreement.
(** two rotations about the axis [P] of qubit 0, by the parameters a and b *)
Definition two_rx : list gate := [RX (PName "a") (TInt 0) INone None false; RX (PName "b") (TInt 0) INone None false].
Definition two_ry : list gate := [RY (PName "a") (TInt 0) INone None false; RY (PName "b") (TInt 0) INone None false].
Example two_rx_eval : forall w s t, expectation w (SDense (zero_state 1)) (seq_oper two_rx) [z0_obs] [("a"%string, VNum s); ("b"%string, VNum t)] GPSR 0 0 = Ok [cos (s + t)].
Proof.
  intros w s t. rewrite expect_eval.
  transitivity (Ok [((cos (s / 2) * cos (s / 2) - sin (s / 2) * sin (s / 2)) * (cos (t / 2) * cos (t / 2) - sin (t / 2) * sin (t / 2)) - 4 * (sin (s / 2) * cos (s / 2)) * (sin (t / 2) * cos (t / 2)))%R]).
  - replace (s / 2)%R with ((s + 0) / 2)%R by field. replace (t / 2)%R with ((t + 0) / 2)%R by field. ev. f_equal. f_equal. ring.
  - f_equal. f_equal. rewrite cos_plus. pose proof (cos_2a (s / 2)) as A1. pose proof (sin_2a (s / 2)) as A2. pose proof (cos_2a (t / 2)) as B1. pose proof (sin_2a (t / 2)) as B2.
    replace (2 * (s / 2))%R with s in A1, A2 by field. replace (2 * (t / 2))%R with t in B1, B2 by field. rewrite A1, A2, B1, B2. ring.
Qed.
Example two_ry_eval : forall w s t, expectation w (SDense (zero_state 1)) (seq_oper two_ry) [z0_obs] [("a"%string, VNum s); ("b"%string, VNum t)] GPSR 0 0 = Ok [cos (s + t)].
Proof.
  intros w s t. rewrite expect_eval.
  transitivity (Ok [((cos (s / 2) * cos (s / 2) - sin (s / 2) * sin (s / 2)) * (cos (t / 2) * cos (t / 2) - sin (t / 2) * sin (t / 2)) - 4 * (sin (s / 2) * cos (s / 2)) * (sin (t / 2) * cos (t / 2)))%R]).
  - replace (s / 2)%R with ((s + 0) / 2)%R by field. replace (t / 2)%R with ((t + 0) / 2)%R by field. ev. f_equal. f_equal. ring.
  - f_equal. f_equal. rewrite cos_plus. pose proof (cos_2a (s / 2)) as A1. pose proof (sin_2a (s / 2)) as A2. pose proof (cos_2a (t / 2)) as B1. pose proof (sin_2a (t / 2)) as B2.
    replace (2 * (s / 2))%R with s in A1, A2 by field. replace (2 * (t / 2))%R with t in B1, B2 by field. rewrite A1, A2, B1, B2. ring.
Qed.
Definition angles : list R := [0; PI / 2; PI]%R.
Definition grid3 : list (string * list R) := [("a"%string, angles); ("b"%string, angles)].
Example grid3_enough : Forall (enough_values two_rx two_ry) grid3.
Proof.
  pose proof PI_RGT_0 as P.
  assert (ND : NoDup angles) by (unfold angles; apply NoDup_cons; [simpl; intuition lra|apply NoDup_cons; [simpl; intuition lra|apply NoDup_cons; [intros []|apply NoDup_nil]]]).
  assert (F : Forall (fun t => 0 <= t < 2 * PI)%R angles) by (unfold angles; repeat (apply Forall_cons; [lra|]); apply Forall_nil).
  apply Forall_cons; [|apply Forall_cons; [|apply Forall_nil]]; (split; [exact ND|left; split; [|split; [|split; [exact F|unfold uses; simpl; lia]]]]);
    intros g [<-|[<-|[]]] _; right; constructor.
Qed.
Example two_runnable : forall gs, gs = two_rx \/ gs = two_ry -> runnable 1 [("a"%string, VNum 0); ("b"%string, VNum 0)] (seq_oper gs) gs.
Proof.
  intros gs H. split; [apply seq_sequence|]. split; [destruct H as [-> | ->]; discriminate|]. split; [|split].
  - destruct H as [-> | ->]; (apply Forall_cons; [|apply Forall_cons; [|apply Forall_nil]]);
      [exists (RX_matrix (0 + 0))|exists (RX_matrix (0 + 0))|exists (RY_matrix (0 + 0))|exists (RY_matrix (0 + 0))]; exists [], [0];
      (split; [|apply cq_none|reflexivity|in_range]).
    1,2: eapply gm_rotation with (R_ := RX_matrix); simpl; eauto; eexists; split; reflexivity.
    all: eapply gm_rotation with (R_ := RY_matrix); simpl; eauto; eexists; split; reflexivity.
  - destruct H as [-> | ->]; (apply Forall_cons; [reflexivity|apply Forall_cons; [reflexivity|apply Forall_nil]]).
  - destruct H as [-> | ->]; (apply Forall_cons; [exact Logic.I|apply Forall_cons; [exact Logic.I|apply Forall_nil]]).
Qed.
Example two_readable : forall v gs, gs = two_rx \/ gs = two_ry -> Forall2 (readable ex_world 1 v (SDense (zero_state 1)) gs) [z0_obs] [ksum [gate_op Z_matrix [] [0]]].
Proof.
  intros v gs H. apply Forall2_cons; [|apply Forall2_nil]. split; [exists false; apply z0_obs_on; lia|]. intro M. exfalso. revert M. apply no_mix.
  destruct H as [-> | ->]; repeat (apply Forall_cons; [reflexivity|]); apply Forall_nil.
Qed.
(** nine evaluations show that the two circuits have the same expectation of Z for all values of a and b *)
Example C124_example : forall s t,
    expectation ex_world (SDense (zero_state 1)) (seq_oper two_rx) [z0_obs] [("a"%string, VNum s); ("b"%string, VNum t)] GPSR 0 0 =
    expectation ex_world (SDense (zero_state 1)) (seq_oper two_ry) [z0_obs] [("a"%string, VNum s); ("b"%string, VNum t)] GPSR 0 0.
Proof.
  intros s t.
  apply (C124_agreement_on_a_grid_is_agreement ex_world 1 [("a"%string, VNum 0); ("b"%string, VNum 0)] (seq_oper two_rx) two_rx (SDense (zero_state 1)) [z0_obs]
           [ksum [gate_op Z_matrix [] [0]]] 1 (seq_oper two_ry) two_ry (SDense (zero_state 1)) [z0_obs] [ksum [gate_op Z_matrix [] [0]]] GPSR GPSR 0 0 grid3)
    with (a := [("a"%string, s); ("b"%string, t)]);
    [exact ex_world_order|left; reflexivity| | |exact grid3_enough|apply two_runnable; auto|split; reflexivity|discriminate|constructor|intros; apply two_readable; auto
    |apply two_runnable; auto|split; reflexivity|discriminate|constructor|intros; apply two_readable; auto| |reflexivity].
  - apply NoDup_cons; [simpl; intros [Q|[]]; discriminate|apply NoDup_cons; [intros []|apply NoDup_nil]].
  - intros x Ix. exact Ix.
  - intros a G. inversion G as [|x g a' G' [E1 I1] G2]; subst. inversion G2 as [|x2 g2 a2 G3 [E2 I2] G4]; subst. inversion G4; subst.
    destruct x as [k1 s1], x2 as [k2 s2]. simpl in E1, E2. subst k1 k2. unfold at_values, at_value. cbn [fold_left fst snd dict_set String.eqb Ascii.eqb Bool.eqb].
    rewrite two_rx_eval, two_ry_eval. reflexivity.
Qed.

(** the number of values cannot be reduced: RX(a) and H agree on Z at two values of a in one turn, and not at a third *)
Theorem C124_fewer_values_are_not_enough : forall w, exists c c' gs gs' (obs : list (list oper)) (l : list R),
    sequence_of c gs /\ sequence_of c' gs' /\ no_controlled_rotation gs "a" /\ no_controlled_rotation gs' "a" /\
    NoDup l /\ Forall (fun t => 0 <= t < 2 * PI)%R l /\ length l = 2 * Nat.max (uses gs "a") (uses gs' "a") /\ length l = 2 /\
    (forall t, In t l -> expectation w (SDense (zero_state 1)) c obs [("a"%string, VNum t)] GPSR 0 0 = expectation w (SDense (zero_state 1)) c' obs [("a"%string, VNum t)] GPSR 0 0) /\
    expectation w (SDense (zero_state 1)) c obs [("a"%string, VNum 0)] GPSR 0 0 = Ok [1%R] /\
    expectation w (SDense (zero_state 1)) c' obs [("a"%string, VNum 0)] GPSR 0 0 = Ok [0%R].
Proof. exact c124_sharp. Qed.
Print Assumptions C124_fewer_values_are_not_enough.
