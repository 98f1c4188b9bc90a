(** * C106: second derivatives through the GPSR rule.

    The vocabulary is in Spec.v, GateSpec.v, PropSpec.v, NoiseSpec.v, SampleSpec.v, ExpectSpec.v, GpsrSpec.v and HessSpec.v; the model of the
    twice differentiated rule is GpsrSecond.v.  The theorem is followed by an example that meets its hypotheses. *)
From Coq Require Import String Ascii List Arith Bool Reals Lia Lra ZArith.
From Verif Require Import Cplx Py Ndarray OperatorUtils ApplyOperator Sparse Matrices Noise Gates Apply Composite Conversion Shots Gpsr GpsrSecond Api
  Spec Deriv GateSpec PropSpec NoiseSpec SampleSpec ExpectSpec GpsrSpec HessSpec GpsrThm GpsrThm2 GpsrThm3 HessThm Examples.
Import ListNotations.
Local Open Scope nat_scope.

Theorem C106_gpsr_hessian_is_the_second_derivative : forall w n vals circuit gs st obs Ks key,
    set_order (set_iter w) -> numeric_values vals -> vals <> [] -> sequence_of circuit gs -> gs <> [] ->
    Forall (usable n vals) gs -> Forall dense_gate gs -> Forall noise_ok gs -> state_of n st -> obs <> [] ->
    (forall v, Forall2 (readable w n v st gs) obs Ks) ->
    (forall g, In g gs -> names_of_gate g <> [] -> plain_rotation g) ->
    used_once gs \/ (forall name, In name (map fst vals) -> In name (flat_map names_of_gate gs)) ->
    exists H : string -> string -> list R,
      (forall a b, In a (map fst vals) -> In b (map fst vals) ->
        second_derivative_at (fun v => expectation w st circuit obs v GPSR 0 key) vals a b (H a b) /\ H a b = H b a) /\
      forall t1 t2 uuid uuid2, length t1 = length vals -> length t2 = length vals -> (forall i j, uuid i = uuid j -> i = j) ->
        analytical_gpsr_second w st (GMany gs) obs vals t1 t2 uuid uuid2 =
        Ok (second_directional (length obs) (map (fun a => map (H a) (map fst vals)) (map fst vals)) t1 t2).
Proof. exact c106_hessian. Qed.
Print Assumptions C106_gpsr_hessian_is_the_second_derivative.
(** two RX gates with the same angle: the expectation of Z is cos(2x) *)
Fixpoint ticks (i : nat) : string := match i with 0 => EmptyString | S i' => String "x"%char (ticks i') end.
Example C106_example : forall x, analytical_gpsr_second ex_world (SDense (zero_state 1)) (GMany rxs) [z0_obs] [("a"%string, VNum x)] [1%R] [1%R] ticks ticks = Ok [(-4 * cos (2 * x))%R].
Proof.
  intro x. destruct (C106_gpsr_hessian_is_the_second_derivative ex_world 1 [("a"%string, VNum x)] (seq_oper rxs) rxs (SDense (zero_state 1)) [z0_obs] [ksum [gate_op Z_matrix [] [0]]] 0)
    as (H & HD & HC).
  - exact ex_world_order.
  - split; [repeat constructor; intros []|]. apply Forall_cons; [eexists; reflexivity|apply Forall_nil].
  - discriminate.
  - apply seq_sequence.
  - discriminate.
  - apply rxs_usable.
  - apply Forall_cons; [reflexivity|apply Forall_cons; [reflexivity|apply Forall_nil]].
  - apply Forall_cons; [exact Logic.I|apply Forall_cons; [exact Logic.I|apply Forall_nil]].
  - split; reflexivity.
  - discriminate.
  - intro v. apply Forall2_cons; [|apply Forall2_nil]. split; [exists false; apply z0_obs_on; lia|]. intro M. exfalso. revert M. apply no_mix. repeat (apply Forall_cons; [reflexivity|]). apply Forall_nil.
  - intros g [<-|[<-|[]]] _; (split; [reflexivity|split; [left; reflexivity|apply cq_none]]).
  - right. intros name [<-|[]]. left; reflexivity.
  - destruct (HD "a"%string "a"%string) as [(G & y & L & HG & HI) _]; [left; reflexivity|left; reflexivity|]. injection L as <-.
    assert (GE : forall t, G t = [(-2 * sin (2 * t))%R]) by (intro t; exact (gradient_unique _ _ _ _ _ (proj1 (HG t)) (rxs_gradient ex_world t []))).
    assert (LH : List.length (H "a" "a")%string = 1) by (rewrite <- (proj2 (HG x)), GE; reflexivity).
    specialize (HI 0 ltac:(rewrite LH; lia)). rewrite HC; [|reflexivity|reflexivity|].
    + unfold second_directional. cbn [map List.length seq combine rsum fst snd]. f_equal. f_equal. rewrite !Rplus_0_r, !Rmult_1_r.
      eapply uniqueness_limite; [exact HI|]. eapply dpl_ext; [intro t; rewrite GE; reflexivity|]. cbn [nth].
      eapply dpl_eq; [|apply (derivable_pt_lim_scal (fun t => sin (2 * t)) (-2)), (derivable_pt_lim_comp (fun t => 2 * t)%R sin x 2 (cos (2 * x)))].
      * ring.
      * eapply dpl_eq; [|apply (derivable_pt_lim_scal id 2 x 1), derivable_pt_lim_id]. ring.
      * apply derivable_pt_lim_sin.
    + induction i as [|i IH]; intros [|j] Q; try discriminate; [reflexivity|]. injection Q as Q. f_equal. apply IH; exact Q.
Qed.
