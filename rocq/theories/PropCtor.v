(** * C112: the arguments of the gate constructors take effect.

    The vocabulary is in Spec.v, GateSpec.v, NoiseSpec.v, SampleSpec.v and CtorSpec.v. *)
From Coq Require Import String List Arith Bool Reals Lia Lra ZArith Permutation.
From Verif Require Import Cplx Py Ndarray OperatorUtils ApplyOperator Sparse Matrices Noise Gates Apply Composite Shots Gpsr Api
  Spec GateSpec PropSpec NoiseSpec SampleSpec ExpectSpec CtorSpec AlgebraFacts NoiseThm NoiseThm2 SeqThm CtorThm Examples.
Import ListNotations.
Local Open Scope nat_scope.

(** C112: a gate built by a constructor of the library acts as its textbook matrix on the given target qubits, under the given
    controls, followed by the given noise *)
Theorem C112_constructor_arguments_take_effect : forall w n vals t c ns k g M ts cs st, set_order (set_iter w) -> built vals t c ns k g M ->
    targets t ts -> controls c cs -> length ts = k -> valid_qubits n (cs ++ ts) -> noise_argument k ns -> state_of n st ->
    exists out, run w (OpSequence [OGate g]) st vals = Ok (Some out) /\ state_of n out /\
      match ns with
      | None => keq n (density_of out) (sandwiched n (gate_op M cs ts) (density_of st)) /\
                (forall psi, st = SDense psi -> exists phi, out = SDense phi /\ veq n (amp phi) (apply_kernel n (gate_op M cs ts) (amp psi)))
      | Some l => exists q a r, ts = [q] /\ through n q l (sandwiched n (gate_op M cs ts) (density_of st)) r /\ out = SDM a /\ keq n (rho_entry a) r
      end.
Proof. exact c112_constructors. Qed.
Print Assumptions C112_constructor_arguments_take_effect.
(** a controlled, noisy PHASE gate with a named angle *)
Example C112_example : exists out, run ex_world (OpSequence [OGate (PHASE (PName "a") (TInt 2) (ITup [QInt 0; QInt 1]) (Some [mkNoise BITFLIP (PFloat (1 / 4))]) false)])
      (SDense (zero_state 3)) [("a", VNum 1)]%string = Ok (Some out) /\ state_of 3 out /\
    exists q a r, [2] = [q] /\ through 3 q [mkNoise BITFLIP (PFloat (1 / 4))] (sandwiched 3 (gate_op (PHASE_matrix 1) [0; 1] [2]) (density_of (SDense (zero_state 3)))) r /\
      out = SDM a /\ keq 3 (rho_entry a) r.
Proof.
  refine (C112_constructor_arguments_take_effect ex_world 3 [("a", VNum 1)]%string (TInt 2) (ITup [QInt 0; QInt 1]) (Some [mkNoise BITFLIP (PFloat (1 / 4))]) 1
    _ (PHASE_matrix 1) [2] [0; 1] (SDense (zero_state 3)) ex_world_order (b_PHASE _ _ _ _ (PName "a") 1 _) (tg_int 2) (ct_tuple [0; 1]) eq_refl _ _ _).
  - apply an_name; reflexivity.
  - ex_side.
  - split; [reflexivity|]. apply Forall_cons; [|apply Forall_nil]. split; [exact Logic.I|]. unfold valid_parameter, is_prob; simpl; lra.
  - split; reflexivity.
Qed.
