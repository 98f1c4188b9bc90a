(** * A matrix exponential for the examples: correct on diagonal matrices with imaginary entries *)
From Coq Require Import List String Arith Bool Reals Lia Lra Permutation.
From Verif Require Import Cplx Py PyFacts Ndarray NdFacts OperatorUtils ApplyOperator Sparse Matrices Noise Gates Apply Composite
  Spec SpecFacts Deriv ApplyFacts DmFacts GateSpec PropSpec GateFacts AlgebraFacts TensorThm GateThm EvolThm Examples.
Import ListNotations.
Local Open Scope nat_scope.

Definition diag_expm (a : arr) : arr :=
  build (shape a) (fun v => if Nat.eqb (nth 0 v 0) (nth 1 v 0) then Cexpi (im (get a v)) else C0).
Definition evol_world : world :=
  mkWorld (set_iter ex_world) diag_expm (eigh ex_world) (inv_mat ex_world) (choice ex_world).

Lemma diag_expm_entry : forall k a (d : list nat -> R), is_matrix k a ->
    (forall x y, In x (bitstrings k) -> In y (bitstrings k) ->
       entry a x y = Cmul (Cmul (Copp Ci) (RtoC (d x))) (kid x y)) ->
    forall t, keq k (entry (diag_expm (scale (RtoC t) a))) (fun x y => Cmul (kid x y) (Cexpi ((- d x) * t + 0))).
Proof.
  intros k a d HM HD t x y Hx Hy. destruct (scale_matrix k (RtoC t) a HM) as [[SS WS] ES].
  unfold entry at 1, diag_expm. rewrite get_build.
  - cbn [nth]. unfold kid. destruct (list_eq_dec Nat.eq_dec x y) as [->|NE].
    + rewrite Nat.eqb_refl, Cmul_1_l. f_equal.
      change (get (scale (RtoC t) a) [binval y; binval y]) with (entry (scale (RtoC t) a) y y).
      rewrite (ES y y Hy Hy); unfold kscale; rewrite HD by assumption. rewrite kid_eq. simpl; ring.
    + destruct (Nat.eqb_spec (binval x) (binval y)) as [E|_]; [|apply C_ext; simpl; ring].
      exfalso; apply NE, (binval_inj k); assumption.
  - rewrite SS. apply inb_2; apply binval_lt; assumption.
Qed.
Lemma diag_expm_ok : forall k a (d : list nat -> R), is_matrix k a ->
    (forall x y, In x (bitstrings k) -> In y (bitstrings k) ->
       entry a x y = Cmul (Cmul (Copp Ci) (RtoC (d x))) (kid x y)) ->
    exponential_of diag_expm k a.
Proof.
  intros k a d HM HD. assert (HE := diag_expm_entry k a d HM HD).
  split; [exact HM|]. split; [|split].
  - intro t; destruct (scale_matrix k (RtoC t) a HM) as [[SS WS] _]. split; [exact SS|apply wf_build].
  - rewrite HE. intros x y Hx Hy. rewrite Rmult_0_r, Rplus_0_r, Cexpi_0. apply C_ext; simpl; ring.
  - intro t. eapply kderiv_ext; [intro s; apply keq_sym, HE|].
    intros x y Hx Hy. eapply Cderiv_eq; [|apply Cderiv_scale, (Cderiv_affine Cexpi (- d x) 0 t), Cderiv_expi].
    unfold kmul.
    rewrite (csum_ext _ _ (fun z => Cmul (kid x z) (Cmul (Cmul (Copp Ci) (RtoC (d x))) (Cmul (kid z y) (Cexpi (- d z * t + 0)))))).
    + rewrite csum_kid_l by exact Hx. generalize (Cexpi (- d x * t + 0)); intro e; apply C_ext; simpl; ring.
    + intros z Hz. rewrite HD by assumption. rewrite (HE t z y Hz Hy). ring.
Qed.

Lemma ham01_matrix : is_matrix 2 ham01.
Proof. split; [reflexivity|apply wf_build]. Qed.
Lemma ham01_exponential : exponential_of (expm evol_world) 2 (minus_i ham01).
Proof.
  apply (diag_expm_ok 2 _ (fun x => if list_eq_dec Nat.eq_dec x [0; 1] then PI else 0%R)).
  - apply scale_matrix, ham01_matrix.
  - intros x y Hx Hy; bits2 Hx; bits2 Hy; unfold kid, entry, minus_i, scale, get, map_arr; simpl; apply C_ext; simpl; ring.
Qed.
Lemma ham01_hermitian : hermitian 2 (entry ham01).
Proof. intros x y Hx Hy; bits2 Hx; bits2 Hy; unfold kadj, entry, get; simpl; apply C_ext; simpl; ring. Qed.
