(** * C108: derivatives of any order through the GPSR rule.

    The vocabulary is in Spec.v, GateSpec.v, PropSpec.v, NoiseSpec.v, SampleSpec.v, ExpectSpec.v, GpsrSpec.v and OrderSpec.v; the model of the
    repeatedly differentiated rule is GpsrOrder.v.  The theorem is followed by examples; the first ones relate the model to the rules of
    Gpsr.v (order 1) and GpsrSecond.v (order 2). *)
From Coq Require Import String Ascii List Arith Bool Reals Lia Lra ZArith Permutation.
From Verif Require Import Cplx Py Ndarray OperatorUtils ApplyOperator Sparse Matrices Noise Gates Apply Composite Conversion Shots Gpsr GpsrSecond GpsrOrder Api
  Spec Deriv GateSpec PropSpec NoiseSpec SampleSpec ExpectSpec GpsrSpec HessSpec OrderSpec GpsrThm GpsrThm2 GpsrThm3 HessThm OrderThm Examples.
Import ListNotations.
Local Open Scope nat_scope.

Theorem C108_gpsr_derivatives_of_any_order : forall w n vals circuit gs st obs Ks key,
    set_order (set_iter w) -> numeric_values vals -> vals <> [] -> sequence_of circuit gs -> gs <> [] ->
    Forall (usable n vals) gs -> Forall dense_gate gs -> Forall noise_ok gs -> state_of n st -> obs <> [] ->
    (forall v, Forall2 (readable w n v st gs) obs Ks) ->
    (forall g, In g gs -> names_of_gate g <> [] -> plain_rotation g) ->
    used_once gs \/ (forall name, In name (map fst vals) -> In name (flat_map names_of_gate gs)) ->
    exists H : list string -> list R,
      (forall l, incl l (map fst vals) -> mixed_derivative (fun v => expectation w st circuit obs v GPSR 0 key) l vals (H l)) /\
      (forall l l', Permutation l l' -> H l = H l') /\
      forall ts uuid, Forall (fun t => length t = length vals) ts -> (forall k i j, uuid k i = uuid k j -> i = j) ->
        analytical_gpsr_derivative w st (GMany gs) obs vals ts uuid =
        Ok (map (fun i => multilinear (map fst vals) (fun l => nth i (H l) 0%R) ts) (seq 0 (length obs))).
Proof. exact c108_order. Qed.
Print Assumptions C108_gpsr_derivatives_of_any_order.
(** order 1 is the rule itself *)
Example C108_order_one : forall w st ga obs vals t uuid fwd tan, analytical_gpsr_jvp w st ga obs vals t (uuid 1) = Ok (fwd, tan) ->
    analytical_gpsr_derivative w st ga obs vals [t] uuid = Ok tan.
Proof.
  intros w st ga obs vals t uuid fwd tan H. unfold analytical_gpsr_jvp, gpsr_jvp in H. unfold analytical_gpsr_derivative. cbn [length gpsr_derivative].
  destruct (analytical_eval w st obs ga vals 0) as [f|]; [|discriminate]. cbn [bind] in H.
  destruct (jvp_grads (analytical_eval w st obs) ga vals (uuid 1) no_split 0) as [g|] eqn:EJ; [|discriminate]. cbn [bind] in H. injection H as _ <-.
  destruct ga as [g0|l]; [|destruct (gpsr_branch (GMany l) (map fst vals))]; reflexivity.
Qed.
(** two RX gates with the same angle: the expectation of Z is cos(2x), its derivative of order k is 2^k cos(2x + k pi/2) *)
Example rxs_mixed : forall k x h, mixed_derivative (fun v => expectation ex_world (SDense (zero_state 1)) (seq_oper rxs) [z0_obs] v GPSR 0 0) (repeat "a"%string k) [("a"%string, VNum x)] h ->
    h = [(2 ^ k * cos (2 * x + INR k * (PI / 2)))%R].
Proof.
  induction k as [|k IH]; intros x h H; cbn [repeat mixed_derivative] in H.
  - rewrite expect_eval, eval_rxs in H. injection H as <-. cbn [INR pow]. f_equal. rewrite Rmult_1_l. f_equal. ring.
  - destruct H as (G & y & L & HG & HD). injection L as <-.
    assert (GE : forall t, G t = [(2 ^ k * cos (2 * t + INR k * (PI / 2)))%R]) by (intro t; apply IH, HG).
    assert (LH : length h = 1) by (rewrite <- (proj2 (HG x)), GE; reflexivity). destruct h as [|h0 [|? ?]]; try discriminate. f_equal.
    specialize (HD 0 ltac:(rewrite LH; lia)). cbn [nth] in HD. eapply uniqueness_limite; [exact HD|]. eapply dpl_ext; [intro t; rewrite GE; reflexivity|]. cbn [nth].
    eapply dpl_eq; [|apply (derivable_pt_lim_scal (fun t => cos (2 * t + INR k * (PI / 2))) (2 ^ k)), (derivable_pt_lim_comp (fun t => 2 * t + INR k * (PI / 2))%R cos x 2 (- sin (2 * x + INR k * (PI / 2))))].
    + rewrite S_INR. cbn [pow]. replace (2 * x + (INR k + 1) * (PI / 2))%R with (PI / 2 + (2 * x + INR k * (PI / 2)))%R by ring. rewrite (sin_cos (2 * x + INR k * (PI / 2))). ring.
    + eapply dpl_eq; [|apply (derivable_pt_lim_plus (fun t => 2 * t)%R (fun _ => INR k * (PI / 2))%R x 2 0)].
      * ring.
      * eapply dpl_eq; [|apply (derivable_pt_lim_scal id 2 x 1), derivable_pt_lim_id]. ring.
      * apply derivable_pt_lim_const.
    + apply derivable_pt_lim_cos.
Qed.
Fixpoint marks (i : nat) : string := match i with 0 => EmptyString | S i' => String "x"%char (marks i') end.
Example C108_example : forall k x, analytical_gpsr_derivative ex_world (SDense (zero_state 1)) (GMany rxs) [z0_obs] [("a"%string, VNum x)] (repeat [1%R] k) (fun _ => marks) =
    Ok [(2 ^ k * cos (2 * x + INR k * (PI / 2)))%R].
Proof.
  intros k x. destruct (C108_gpsr_derivatives_of_any_order ex_world 1 [("a"%string, VNum x)] (seq_oper rxs) rxs (SDense (zero_state 1)) [z0_obs] [ksum [gate_op Z_matrix [] [0]]] 0)
    as (H & HD & _ & HC).
  - exact ex_world_order.
  - split; [repeat constructor; intros []|]. apply Forall_cons; [eexists; reflexivity|apply Forall_nil].
  - discriminate.
  - apply seq_sequence.
  - discriminate.
  - apply rxs_usable.
  - apply Forall_cons; [reflexivity|apply Forall_cons; [reflexivity|apply Forall_nil]].
  - apply Forall_cons; [exact Logic.I|apply Forall_cons; [exact Logic.I|apply Forall_nil]].
  - split; reflexivity.
  - discriminate.
  - intro v. apply Forall2_cons; [|apply Forall2_nil]. split; [exists false; apply z0_obs_on; lia|]. intro M. exfalso. revert M. apply no_mix. repeat (apply Forall_cons; [reflexivity|]). apply Forall_nil.
  - intros g [<-|[<-|[]]] _; (split; [reflexivity|split; [left; reflexivity|apply cq_none]]).
  - right. intros name [<-|[]]. left; reflexivity.
  - rewrite HC.
    + cbn [map length seq fst]. f_equal. f_equal.
      assert (E : forall l j, multilinear ["a"%string] (fun m => nth 0 (H (l ++ m)) 0%R) (repeat [1%R] j) = nth 0 (H (l ++ repeat "a"%string j)) 0%R).
      { intros l j. revert l. induction j as [|j IH]; intro l; [reflexivity|]. cbn [repeat multilinear combine rsum fst snd]. rewrite Rplus_0_r, Rmult_1_r.
        specialize (IH (l ++ ["a"%string])). rewrite <- app_assoc in IH. cbn [app] in IH. rewrite <- IH. clear IH. apply ml_ext. intro m. rewrite <- app_assoc. reflexivity. }
      specialize (E [] k). cbn [app] in E. rewrite E. rewrite (rxs_mixed k x (H (repeat "a"%string k))); [reflexivity|]. apply HD. intros a I. apply repeat_spec in I. subst a. left; reflexivity.
    + apply Forall_forall. intros t I. apply repeat_spec in I. subst t. reflexivity.
    + intros _. induction i as [|i IH]; intros [|j] Q; try discriminate; [reflexivity|]. injection Q as Q. f_equal. apply IH; exact Q.
Qed.
