(** * Matrix exponentials for the examples of C113: of the multiples of X, of Z (x) Z and of their sums with diagonal matrices *)
From Coq Require Import List String Arith Bool Reals Lia Lra Permutation.
From Verif Require Import Cplx Py PyFacts Ndarray NdFacts OperatorUtils ApplyOperator Sparse Matrices Noise Gates Apply Composite Api
  Spec SpecFacts Deriv ApplyFacts DmFacts GateSpec PropSpec GateFacts AlgebraFacts TensorThm GateThm EvolThm EvolSpec EvolThm2 EvolThm3 Examples EvolExamples.
Import ListNotations.
Local Open Scope nat_scope.

Definition x_expm (a : arr) : arr :=
  build [2; 2] (fun v => if Nat.eqb (nth 0 v 0) (nth 1 v 0) then RtoC (cos (im (get a [0; 1]))) else Cmul Ci (RtoC (sin (im (get a [0; 1]))))).
Definition x_world : world := mkWorld (set_iter ex_world) x_expm (eigh ex_world) (inv_mat ex_world) (choice ex_world).
Lemma m_X_matrix : is_matrix 1 m_X /\ keq 1 (entry m_X) X_matrix.
Proof. split; [split; [reflexivity|apply wf_build || reflexivity]|]. intros x y Hx Hy; bits1 Hx; bits1 Hy; reflexivity. Qed.
Lemma m_X_square : keq 1 (kmul 1 (entry m_X) (entry m_X)) kid.
Proof. destruct m_X_matrix as [_ E]. rewrite E. apply (rotations_pauli RX X_matrix). simpl; tauto. Qed.
Lemma m_X_hermitian : hermitian 1 (entry m_X).
Proof. intros x y Hx Hy; bits1 Hx; bits1 Hy; unfold kadj, entry, get; cbn; apply C_ext; simpl; ring. Qed.
Lemma x_expm_entry : forall t, keq 1 (entry (x_expm (scale (RtoC t) (minus_i m_X)))) (turn (entry m_X) t).
Proof.
  intros t. assert (E : im (get (scale (RtoC t) (minus_i m_X)) [0; 1]) = (- t)%R) by (unfold get, scale, minus_i; cbn; ring).
  intros x y Hx Hy. unfold x_expm. rewrite E, cos_neg, sin_neg. unfold turn, kadd, kscale.
  bits1 Hx; bits1 Hy; unfold entry, get; cbn; apply C_ext; simpl; ring.
Qed.
Lemma x_exponential : exponential_of (expm x_world) 1 (minus_i m_X).
Proof.
  split; [apply scale_matrix, m_X_matrix|]. split; [intro t; split; [reflexivity|apply wf_build]|]. split.
  - change (keq 1 (entry (x_expm (scale (RtoC 0) (minus_i m_X)))) kid). rewrite x_expm_entry. apply turn_0.
  - intro t. change (kderiv 1 (fun s => entry (x_expm (scale (RtoC s) (minus_i m_X)))) t (kmul 1 (entry (minus_i m_X)) (entry (x_expm (scale (RtoC t) (minus_i m_X)))))).
    eapply kderiv_ext; [intro s; apply keq_sym, x_expm_entry|]. eapply kderiv_eq; [|apply turn_deriv, m_X_square].
    apply kmul_ext; [|apply keq_sym, x_expm_entry]. apply keq_sym. apply (scale_matrix 1 (Copp Ci) m_X), m_X_matrix.
Qed.

(** Z (x) Z, and its sum with [ham01] *)
Definition ham_ZZ : arr := build [4; 4] (fun v => if Nat.eqb (nth 0 v 0) (nth 1 v 0)
    then (if (Nat.eqb (nth 0 v 0) 0 || Nat.eqb (nth 0 v 0) 3)%bool then C1 else Copp C1) else C0).
Definition ham_sum : arr := build [4; 4] (fun v => Cadd (get ham01 v) (get ham_ZZ v)).
Lemma ham_ZZ_matrix : is_matrix 2 ham_ZZ /\ keq 2 (entry ham_ZZ) (kron2 Z_matrix Z_matrix).
Proof. split; [split; [reflexivity|apply wf_build]|]. intros x y Hx Hy; bits2 Hx; bits2 Hy; unfold entry, get, kron2; cbn; apply C_ext; simpl; ring. Qed.
Lemma ham_sum_matrix : is_matrix 2 ham_sum /\ keq 2 (entry ham_sum) (kadd (entry ham01) (entry ham_ZZ)).
Proof. split; [split; [reflexivity|apply wf_build]|]. intros x y Hx Hy; bits2 Hx; bits2 Hy; reflexivity. Qed.
Definition zz_sign (x : list nat) : R := if Nat.eqb (nth 0 x 0) (nth 1 x 0) then 1%R else (-1)%R.
Definition h01_value (x : list nat) : R := if list_eq_dec Nat.eq_dec x [0; 1] then PI else 0%R.
Lemma ham_ZZ_exponential : exponential_of (expm evol_world) 2 (minus_i ham_ZZ).
Proof.
  apply (diag_expm_ok 2 _ zz_sign); [apply scale_matrix, ham_ZZ_matrix|].
  intros x y Hx Hy; bits2 Hx; bits2 Hy; unfold zz_sign, kid, entry, minus_i, scale, get, map_arr; simpl; apply C_ext; simpl; ring.
Qed.
Lemma ham_sum_exponential : exponential_of (expm evol_world) 2 (minus_i ham_sum).
Proof.
  apply (diag_expm_ok 2 _ (fun x => (h01_value x + zz_sign x)%R)); [apply scale_matrix, ham_sum_matrix|].
  intros x y Hx Hy; bits2 Hx; bits2 Hy; unfold h01_value, zz_sign, kid, entry, minus_i, scale, get, map_arr; simpl; apply C_ext; simpl; ring.
Qed.
Lemma ham_ZZ_hermitian : hermitian 2 (entry ham_ZZ).
Proof. intros x y Hx Hy; bits2 Hx; bits2 Hy; unfold kadj, entry, get; simpl; apply C_ext; simpl; ring. Qed.
Lemma ham_commute : keq 2 (kmul 2 (entry ham01) (entry ham_ZZ)) (kmul 2 (entry ham_ZZ) (entry ham01)).
Proof. intros x y Hx Hy; bits2 Hx; bits2 Hy; unfold kmul, entry, get; simpl; apply C_ext; simpl; ring. Qed.
