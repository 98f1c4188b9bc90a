(** * Negative qubit indices: inputs on which they do not count from the last qubit *)
From Coq Require Import List Arith ZArith Bool Reals Lia Lra Permutation Sorting.Sorted.
From Verif Require Import Cplx Py PyFacts Ndarray NdFacts NdPerm OperatorUtils ApplyOperator Sparse Matrices Noise Gates Apply Signed
  Spec SpecFacts ApplyFacts DmFacts GateSpec PropSpec GateFacts AlgebraFacts ExpandFacts CircuitFacts TensorFacts SignedSpec ApplyThm SignedThm SignedThm2.
Import ListNotations.
Local Open Scope nat_scope.

(** X on the last qubit *)
Definition X_last : zgate := mkZGate (gX (TInt 0) no_control None false) [(-1)%Z] None.
(** the density matrix |00><00| *)
Definition rho00 : arr := mkArr [2; 2; 2; 2] (C1 :: repeat C0 15).
Lemma c123_refuted : forall w vals gr mg, set_iter w [0; 1] = [0; 1] -> exists r1 r2,
    is_density 2 rho00 /\ usable 2 vals (resolved 2 X_last) /\ resolved 2 X_last = gX (TInt 1) no_control None false /\
    apply_gates_z w (SDM rho00) [X_last] vals UNITARY gr mg = Ok (SDM r1) /\
    apply_gates_z w (SDense ket00) [X_last] vals UNITARY gr mg = Ok (SDense r2) /\
    rho_entry r1 [1; 0] [1; 0] = C1 /\ rho_entry r1 [0; 1] [0; 1] = C0 /\ amp r2 [1; 0] = C0 /\ amp r2 [0; 1] = C1.
Proof.
  intros w vals gr mg SI.
  rewrite one_gate_z by (first [reflexivity|exact Logic.I]). rewrite one_gate_dense by reflexivity.
  do 2 eexists. split; [split; reflexivity|]. split.
  { exists X_matrix, [], [1]; split; [eapply gm_fixed; simpl; eauto|constructor|reflexivity|]. split; [repeat constructor; simpl; intuition|repeat constructor]. }
  split; [reflexivity|]. split.
  { change (ztarget X_last) with [(-1)%Z]. change (zcontrol X_last) with (@None (list Z)).
    match goal with |- context [operator_of ?a ?b ?c ?d] => let o := eval lazy -[Rplus Rmult Ropp IZR] in (operator_of a b c d) in change (operator_of a b c d) with o end.
    cbn [bind apply_operator_state_z]. unfold apply_operator_dm_z.
    match goal with |- context [prepare_operator_z ?a ?b ?c] => let o := eval lazy -[Rplus Rmult Ropp IZR] in (prepare_operator_z a b c) in change (prepare_operator_z a b c) with o end. cbn [bind fst snd].
    change (outside (ndim rho00 / 2) [(-1)%Z]) with [0; 1]. rewrite SI. lazy -[Rplus Rmult Ropp IZR]. reflexivity. }
  split; [lazy -[Rplus Rmult Ropp IZR]; reflexivity|].
  split; [|split; [|split]]; (lazy -[Rplus Rmult Ropp IZR]; apply (f_equal2 mkC); ring).
Qed.
(** X on qubit 0, then Z on the last qubit, of a single qubit *)
Definition X_Z_last : list zgate := [mkZGate (gX (TInt 0) no_control None false) [0%Z] None; mkZGate (gZ (TInt 0) no_control None false) [(-1)%Z] None].
Definition ket0 : arr := mkArr [2] [C1; C0].
Lemma c123_group_refuted : forall w vals mg, exists r1 r2,
    is_state 1 ket0 /\ Forall (usable 1 vals) (map (resolved 1) X_Z_last) /\ map (resolved 1) X_Z_last = [gX (TInt 0) no_control None false; gZ (TInt 0) no_control None false] /\
    apply_gates_z w (SDense ket0) X_Z_last vals UNITARY true mg = Ok (SDense r1) /\
    apply_gates_z w (SDense ket0) X_Z_last vals UNITARY false mg = Ok (SDense r2) /\
    amp r1 [1] = C1 /\ amp r2 [1] = RtoC (-1).
Proof.
  intros w vals mg. do 2 eexists. split; [split; reflexivity|]. split.
  { repeat (apply Forall_cons || apply Forall_nil).
    - exists X_matrix, [], [0]; split; [eapply gm_fixed; simpl; eauto|constructor|reflexivity|]. split; [repeat constructor; simpl; intuition|repeat constructor].
    - exists Z_matrix, [], [0]; split; [eapply gm_fixed; simpl; eauto 10|constructor|reflexivity|]. split; [repeat constructor; simpl; intuition|repeat constructor]. }
  split; [reflexivity|]. split; [destruct mg; lazy -[Rplus Rmult Ropp IZR]; reflexivity|]. split; [destruct mg; lazy -[Rplus Rmult Ropp IZR]; reflexivity|].
  split; (lazy -[Rplus Rmult Ropp IZR]; apply (f_equal2 mkC); ring).
Qed.
