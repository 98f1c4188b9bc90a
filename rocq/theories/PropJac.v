(** * C24 (continued): when JACOBIAN raises.

    Every theorem is followed by an example that meets its hypotheses. *)
From Coq Require Import String List Arith Bool Reals.
From Verif Require Import Cplx Py Ndarray OperatorUtils Sparse Matrices Noise Gates Apply Spec GateSpec JacThm Examples.
Import ListNotations.
Local Open Scope nat_scope.

(** the Jacobian of a sparse rotation is not implemented, whatever the state *)
Theorem C24_sparse_rotations_have_no_jacobian : forall w st g vals t group merge, gclass g = KParam -> In (generator_name g) ["X"; "Y"; "Z"]%string -> sparse g = true -> angle vals g t ->
    apply_gates w st (GOne g) vals JACOBIAN group merge = Err NotImplementedError.
Proof. exact c24_sparse. Qed.
Print Assumptions C24_sparse_rotations_have_no_jacobian.
Example C24_sparse_example : apply_gates ex_world (SDense (zero_state 1)) (GOne (RX (PName "a") (TInt 0) no_control None true)) [("a"%string, VNum 2%R)] JACOBIAN false true = Err NotImplementedError.
Proof. apply (C24_sparse_rotations_have_no_jacobian _ _ _ _ (2 + 0)%R); [reflexivity|left; reflexivity|reflexivity|]. exists 2%R. split; reflexivity. Qed.
(** gates without an angle, and Hamiltonian evolution, have no Jacobian *)
Theorem C24_fixed_gates_have_no_jacobian : forall w st g vals group merge, gclass g = KPrim \/ gclass g = KHam -> apply_gates w st (GOne g) vals JACOBIAN group merge = Err AttributeError.
Proof. exact c24_fixed. Qed.
Print Assumptions C24_fixed_gates_have_no_jacobian.
Example C24_fixed_example : apply_gates ex_world (SDense (zero_state 1)) (GOne (gH (TInt 0) no_control None false)) [] JACOBIAN false true = Err AttributeError.
Proof. apply C24_fixed_gates_have_no_jacobian. left. reflexivity. Qed.
