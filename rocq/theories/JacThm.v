(** * JACOBIAN of sparse rotations and of gates without a parameter (C24) *)
From Coq Require Import String List Arith Bool Reals.
From Verif Require Import Cplx Py Ndarray OperatorUtils Sparse Matrices Noise Gates Apply Spec GateSpec.
Import ListNotations.
Local Open Scope nat_scope.

Lemma parse_angle : forall vals g t, angle vals g t -> parse_values g vals = Ok t.
Proof.
  intros vals g t A. unfold angle in A. unfold parse_values. destruct (gparam g) as [s|x]; [|rewrite A; reflexivity]. destruct A as (x & E & ->). rewrite E. reflexivity.
Qed.
Lemma c24_sparse : forall w st g vals t group merge, gclass g = KParam -> In (generator_name g) ["X"; "Y"; "Z"]%string -> sparse g = true -> angle vals g t ->
    apply_gates w st (GOne g) vals JACOBIAN group merge = Err NotImplementedError.
Proof.
  intros w st g vals t gr me C N S A. unfold apply_gates, prepare_sequence_reduce. cbn [operator_of]. unfold jacobian_of. rewrite C. unfold generator. rewrite S.
  destruct N as [E|[E|[E|[]]]]; rewrite <- E, (parse_angle _ _ _ A); reflexivity.
Qed.
Lemma c24_fixed : forall w st g vals group merge, gclass g = KPrim \/ gclass g = KHam -> apply_gates w st (GOne g) vals JACOBIAN group merge = Err AttributeError.
Proof.
  intros w st g vals gr me C. unfold apply_gates, prepare_sequence_reduce. cbn [operator_of]. unfold jacobian_of. destruct C as [-> | ->]; reflexivity.
Qed.
