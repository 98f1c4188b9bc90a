(** * C129: the forward rule of GPSR is linear in the tangents.

    [combination a b u v] in TangentSpec.v is a*u + b*v.  Every theorem is followed by an example that meets its hypotheses. *)
From Coq Require Import String List Arith Bool Reals Lra.
From Verif Require Import Cplx Py Ndarray OperatorUtils Sparse Matrices Noise Gates Apply Composite Conversion Shots Gpsr
  Spec ShotsSpec GpsrSpec ShotGradSpec TangentSpec TangentThm Examples ShotsThm ShotsThm2 ShotGradThm2 ExpectThm2 GpsrThm3 GpsrThm4 PropGpsr PropShotGrad.
Import ListNotations.
Local Open Scope nat_scope.

(** C129: exact expectations; the returned expectations do not depend on the tangents *)
Theorem C129_forward_rule_is_linear : forall w st ga obs vals t t' a b uuid v d v' d', List.length t = List.length t' ->
    analytical_gpsr_jvp w st ga obs vals t uuid = Ok (v, d) -> analytical_gpsr_jvp w st ga obs vals t' uuid = Ok (v', d') ->
    v' = v /\ analytical_gpsr_jvp w st ga obs vals (combination a b t t') uuid = Ok (v, combination a b d d').
Proof. exact c129_exact. Qed.
Print Assumptions C129_forward_rule_is_linear.
Example C129_example : exists fwd d d', forall uuid,
    analytical_gpsr_jvp ex_world (SDense (basis [0; 0; 0])) (GMany ex_circuit) [z0_obs; x0_obs] ex_values [1%R; 0%R] uuid = Ok (fwd, d) /\
    analytical_gpsr_jvp ex_world (SDense (basis [0; 0; 0])) (GMany ex_circuit) [z0_obs; x0_obs] ex_values [0%R; 1%R] uuid = Ok (fwd, d') /\
    analytical_gpsr_jvp ex_world (SDense (basis [0; 0; 0])) (GMany ex_circuit) [z0_obs; x0_obs] ex_values (combination 2 3 [1%R; 0%R] [0%R; 1%R]) uuid = Ok (fwd, combination 2 3 d d').
Proof.
  destruct C52_example as (fwd & grads & _ & _ & _ & E). exists fwd, (directional 2 grads [1%R; 0%R]), (directional 2 grads [0%R; 1%R]). intro uuid.
  split; [apply E|split; [apply E|]].
  exact (proj2 (C129_forward_rule_is_linear ex_world (SDense (basis [0; 0; 0])) (GMany ex_circuit) [z0_obs; x0_obs] ex_values [1%R; 0%R] [0%R; 1%R] 2 3 uuid _ _ _ _ eq_refl (E 1%R 0%R uuid) (E 0%R 1%R uuid))).
Qed.

(** C129: finite shots, for any fixed random key: the estimate itself, not only its mean, is linear in the tangents *)
Theorem C129_forward_rule_with_shots_is_linear : forall w st ga obs vals t t' a b n_shots uuid split key v d v' d', List.length t = List.length t' ->
    finite_shots_gpsr_jvp w st ga obs vals t n_shots uuid split key = Ok (v, d) -> finite_shots_gpsr_jvp w st ga obs vals t' n_shots uuid split key = Ok (v', d') ->
    v' = v /\ finite_shots_gpsr_jvp w st ga obs vals (combination a b t t') n_shots uuid split key = Ok (v, combination a b d d').
Proof. exact c129_shots. Qed.
Print Assumptions C129_forward_rule_with_shots_is_linear.
Example C129_shots_example : forall x split ch, exists fwd d,
    finite_shots_gpsr_jvp (with_choice pauli_world ch) (SDense (zero_state 1)) (GMany rxs) [z0_obs] [("a"%string, VNum x)] [3%R] 7 nm split 0 = Ok (fwd, d) /\
    finite_shots_gpsr_jvp (with_choice pauli_world ch) (SDense (zero_state 1)) (GMany rxs) [z0_obs] [("a"%string, VNum x)] (combination 2 (-5) [3%R] [3%R]) 7 nm split 0 = Ok (fwd, combination 2 (-5) d d).
Proof.
  intros x split ch. destruct (C122_example x split) as (fwd & est & _ & _ & E & _). exists (fwd ch), (est ch). split; [apply E|].
  exact (proj2 (C129_forward_rule_with_shots_is_linear (with_choice pauli_world ch) (SDense (zero_state 1)) (GMany rxs) [z0_obs] [("a"%string, VNum x)] [3%R] [3%R] 2 (-5) 7 nm split 0 _ _ _ _ eq_refl (E ch) (E ch))).
Qed.
