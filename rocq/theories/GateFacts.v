(** * Facts about gate matrices *)
From Coq Require Import List String Arith Bool Reals Lia Lra.
From Verif Require Import Cplx Py PyFacts Ndarray NdFacts OperatorUtils Sparse Matrices Noise Gates
  Spec SpecFacts ApplyFacts DmFacts GateSpec.
Import ListNotations.
Local Open Scope nat_scope.

(** case analysis on the bitstrings of fixed small length *)
Ltac bits1 H := simpl in H; destruct H as [H|[H|[]]]; subst.
Ltac bits2 H := simpl in H; destruct H as [H|[H|[H|[H|[]]]]]; subst.

Lemma bitstrings_1 : bitstrings 1 = [[0]; [1]].
Proof. reflexivity. Qed.

Lemma matrix2_is : forall a b c d, is_matrix 1 (matrix [[a; b]; [c; d]]).
Proof. intros; split; reflexivity. Qed.
Lemma matrix2_entry : forall a b c d, keq 1 (entry (matrix [[a; b]; [c; d]])) (mat2 a b c d).
Proof. intros a b c d x y Hx Hy; bits1 Hx; bits1 Hy; reflexivity. Qed.

Lemma mat2_ext : forall a b c d a' b' c' d', a = a' -> b = b' -> c = c' -> d = d' ->
    keq 1 (mat2 a b c d) (mat2 a' b' c' d').
Proof. intros; subst; apply keq_refl. Qed.

Lemma mat2_kmul : forall a b c d a' b' c' d',
    keq 1 (kmul 1 (mat2 a b c d) (mat2 a' b' c' d'))
          (mat2 (Cadd (Cmul a a') (Cmul b c')) (Cadd (Cmul a b') (Cmul b d'))
                (Cadd (Cmul c a') (Cmul d c')) (Cadd (Cmul c b') (Cmul d d'))).
Proof.
  intros a b c d a' b' c' d' x y Hx Hy; bits1 Hx; bits1 Hy; unfold kmul; simpl; ring.
Qed.
Lemma mat2_kadj : forall a b c d, keq 1 (kadj (mat2 a b c d)) (mat2 (Cconj a) (Cconj c) (Cconj b) (Cconj d)).
Proof. intros a b c d x y Hx Hy; bits1 Hx; bits1 Hy; reflexivity. Qed.
Lemma mat2_kid : keq 1 kid I_matrix.
Proof. intros x y Hx Hy; bits1 Hx; bits1 Hy; reflexivity. Qed.

Lemma mat2_unitary : forall a b c d,
    (Cnorm2 a + Cnorm2 c = 1)%R -> (Cnorm2 b + Cnorm2 d = 1)%R ->
    (Cnorm2 a + Cnorm2 b = 1)%R -> (Cnorm2 c + Cnorm2 d = 1)%R ->
    Cadd (Cmul (Cconj a) b) (Cmul (Cconj c) d) = C0 ->
    Cadd (Cmul a (Cconj c)) (Cmul b (Cconj d)) = C0 ->
    unitary 1 (mat2 a b c d).
Proof.
  intros a b c d H1 H2 H3 H4 H5 H6; unfold unitary; split.
  - eapply keq_trans; [apply kmul_ext; [apply mat2_kadj | apply keq_refl]|].
    eapply keq_trans; [apply mat2_kmul|].
    eapply keq_trans; [|apply keq_sym, mat2_kid].
    apply mat2_ext.
    + rewrite !Cmul_conj, <- RtoC_add, H1; reflexivity.
    + exact H5.
    + apply (f_equal Cconj) in H5; rewrite Cconj_add, !Cconj_mul, !Cconj_invol, Cconj_0 in H5.
      rewrite <- H5; ring.
    + rewrite !Cmul_conj, <- RtoC_add, H2; reflexivity.
  - eapply keq_trans; [apply kmul_ext; [apply keq_refl | apply mat2_kadj]|].
    eapply keq_trans; [apply mat2_kmul|].
    eapply keq_trans; [|apply keq_sym, mat2_kid].
    apply mat2_ext.
    + rewrite !Cmul_conj_r, <- RtoC_add, H3; reflexivity.
    + exact H6.
    + apply (f_equal Cconj) in H6; rewrite Cconj_add, !Cconj_mul, !Cconj_invol, Cconj_0 in H6.
      rewrite <- H6; ring.
    + rewrite !Cmul_conj_r, <- RtoC_add, H4; reflexivity.
Qed.

Lemma unitary_ext : forall n A B, keq n A B -> unitary n A -> unitary n B.
Proof.
  intros n A B E [H1 H2]; apply keq_sym in E; split.
  - eapply keq_trans; [apply kmul_ext; [apply kadj_ext; eassumption | eassumption]|exact H1].
  - eapply keq_trans; [apply kmul_ext; [eassumption | apply kadj_ext; eassumption]|exact H2].
Qed.

Lemma sqrt2_sq : (1 / sqrt 2 * (1 / sqrt 2) = 1 / 2)%R.
Proof.
  assert (H : (sqrt 2 * sqrt 2 = 2)%R) by (apply sqrt_sqrt; lra).
  assert (N : (sqrt 2 <> 0)%R) by (apply Rgt_not_eq, sqrt_lt_R0; lra).
  replace (1 / sqrt 2 * (1 / sqrt 2))%R with (1 / (sqrt 2 * sqrt 2))%R by (field; exact N).
  rewrite H; reflexivity.
Qed.

Lemma sc2 : forall t, (cos t * cos t + sin t * sin t = 1)%R.
Proof. intro t; generalize (sin2_cos2 t); unfold Rsqr; lra. Qed.

Ltac cplx := apply C_ext; unfold Cn, RtoC, Cexpi; simpl.

Lemma X_unitary : unitary 1 X_matrix.
Proof. apply mat2_unitary; try (cplx; ring); unfold Cnorm2; simpl; ring. Qed.
Lemma Y_unitary : unitary 1 Y_matrix.
Proof. apply mat2_unitary; try (cplx; ring); unfold Cnorm2; simpl; ring. Qed.
Lemma Z_unitary : unitary 1 Z_matrix.
Proof. apply mat2_unitary; try (cplx; ring); unfold Cnorm2; simpl; ring. Qed.
Lemma I_unitary : unitary 1 I_matrix.
Proof. apply mat2_unitary; try (cplx; ring); unfold Cnorm2; simpl; ring. Qed.
Lemma H_unitary : unitary 1 H_matrix.
Proof.
  pose proof sqrt2_sq as E.
  apply mat2_unitary; try (cplx; ring); unfold Cnorm2; simpl; lra.
Qed.
Lemma S_unitary : unitary 1 S_matrix.
Proof. apply mat2_unitary; try (cplx; ring); unfold Cnorm2; simpl; ring. Qed.
Lemma PHASE_unitary : forall t, unitary 1 (PHASE_matrix t).
Proof.
  intro t; apply mat2_unitary; try (cplx; ring); rewrite ?Cexpi_norm2; unfold Cnorm2; simpl; try ring;
    rewrite sc2; ring.
Qed.
Lemma T_unitary : unitary 1 T_matrix.
Proof. exact (PHASE_unitary (PI / 4)). Qed.
Lemma RX_unitary : forall t, unitary 1 (RX_matrix t).
Proof.
  intro t; pose proof (sc2 (t / 2)) as E.
  apply mat2_unitary; try (cplx; ring); unfold Cnorm2; simpl; lra.
Qed.
Lemma RY_unitary : forall t, unitary 1 (RY_matrix t).
Proof.
  intro t; pose proof (sc2 (t / 2)) as E.
  apply mat2_unitary; try (cplx; ring); unfold Cnorm2; simpl; lra.
Qed.
Lemma RZ_unitary : forall t, unitary 1 (RZ_matrix t).
Proof.
  intro t.
  apply mat2_unitary; rewrite ?Cexpi_norm2; try (cplx; ring); unfold Cnorm2; simpl; try ring;
    rewrite sc2; ring.
Qed.

Lemma SWAP_kadj : keq 2 (kadj SWAP_matrix) SWAP_matrix.
Proof. intros x y Hx Hy; bits2 Hx; bits2 Hy; unfold kadj; simpl; apply C_ext; simpl; ring. Qed.
Lemma SWAP_sq : keq 2 (kmul 2 SWAP_matrix SWAP_matrix) kid.
Proof. intros x y Hx Hy; bits2 Hx; bits2 Hy; unfold kmul, kid; simpl; ring. Qed.
Lemma SWAP_unitary : unitary 2 SWAP_matrix.
Proof.
  split.
  - eapply keq_trans; [apply kmul_ext; [apply SWAP_kadj|apply keq_refl]|apply SWAP_sq].
  - eapply keq_trans; [apply kmul_ext; [apply keq_refl|apply SWAP_kadj]|apply SWAP_sq].
Qed.

Lemma gate_matrix_unitary : forall vals g M, gate_matrix vals g M -> unitary (List.length (target g)) M.
Proof.
  intros vals g M [name M' K N L I|K N L|name R_ t K N L A I|t K L A]; rewrite L.
  - simpl in I; repeat (destruct I as [I|I]; [injection I as <- <-|]); [| | | | | | |contradiction].
    + apply I_unitary. + apply X_unitary. + apply Y_unitary. + apply Z_unitary. + apply H_unitary.
    + apply S_unitary. + apply T_unitary.
  - apply SWAP_unitary.
  - simpl in I; repeat (destruct I as [I|I]; [injection I as <- <-|]); [| | |contradiction].
    + apply RX_unitary. + apply RY_unitary. + apply RZ_unitary.
  - apply PHASE_unitary.
Qed.

(** ** The matrices computed by the library *)
Lemma angle_parse : forall vals g t, angle vals g t <-> parse_values g vals = Ok t.
Proof.
  intros vals g t; unfold angle, parse_values; destruct (gparam g) as [s|x]; simpl.
  - destruct (lookup vals s) as [v|e]; simpl.
    + destruct v as [x|a|d]; simpl; split; intro H.
      * destruct H as (x' & E & ->); injection E as ->; reflexivity.
      * injection H as <-; exists x; auto.
      * destruct H as (x' & E & _); discriminate.
      * discriminate.
      * destruct H as (x' & E & _); discriminate.
      * discriminate.
    + split; [intros (x & E & _); discriminate | discriminate].
  - split; [intros ->; reflexivity | intro H; injection H as <-; reflexivity].
Qed.

Lemma unitary_gen_matrix2 : forall a b c d t,
    let ct := Cn (cos (t / 2)) in let st := Cmul Ci (Cn (sin (t / 2))) in
    unitary_of_generator (matrix [[a; b]; [c; d]]) t =
    Ok (matrix [[Csub (Cmul ct C1) (Cmul st a); Csub (Cmul ct C0) (Cmul st b)];
                [Csub (Cmul ct C0) (Cmul st c); Csub (Cmul ct C1) (Cmul st d)]]).
Proof. intros; reflexivity. Qed.

Lemma RX_lib : forall t, exists u, unitary_of_generator m_X t = Ok u /\ is_matrix 1 u /\ keq 1 (entry u) (RX_matrix t).
Proof.
  intro t; unfold m_X; rewrite unitary_gen_matrix2; eexists; split; [reflexivity|].
  split; [apply matrix2_is|]. eapply keq_trans; [apply matrix2_entry|].
  unfold RX_matrix; apply mat2_ext; cplx; ring.
Qed.
Lemma RY_lib : forall t, exists u, unitary_of_generator m_Y t = Ok u /\ is_matrix 1 u /\ keq 1 (entry u) (RY_matrix t).
Proof.
  intro t; unfold m_Y; rewrite unitary_gen_matrix2; eexists; split; [reflexivity|].
  split; [apply matrix2_is|]. eapply keq_trans; [apply matrix2_entry|].
  unfold RY_matrix; apply mat2_ext; cplx; ring.
Qed.
Lemma RZ_lib : forall t, exists u, unitary_of_generator m_Z t = Ok u /\ is_matrix 1 u /\ keq 1 (entry u) (RZ_matrix t).
Proof.
  intro t; unfold m_Z; rewrite unitary_gen_matrix2; eexists; split; [reflexivity|].
  split; [apply matrix2_is|]. eapply keq_trans; [apply matrix2_entry|].
  unfold RZ_matrix; apply mat2_ext; cplx; replace (- t / 2)%R with (- (t / 2))%R by field;
    rewrite ?cos_neg, ?sin_neg; ring.
Qed.

Lemma phase_matrix_eq : forall t, phase_matrix t = matrix [[C1; C0]; [C0; Cexpi t]].
Proof. intro t; reflexivity. Qed.

Lemma SWAP_lib : is_matrix 2 m_SWAP /\ keq 2 (entry m_SWAP) SWAP_matrix.
Proof.
  split; [split; reflexivity|]. intros x y Hx Hy; bits2 Hx; bits2 Hy; reflexivity.
Qed.

Lemma H_lib : is_matrix 1 m_H /\ keq 1 (entry m_H) H_matrix.
Proof.
  split; [split; reflexivity|]. intros x y Hx Hy; bits1 Hx; bits1 Hy; cbn -[sqrt Rdiv]; cplx; ring.
Qed.

(** the unitary of a library gate is the textbook matrix *)
Lemma unitary_of_ok : forall w vals g M, gate_matrix vals g M -> sparse g = false ->
    exists u, unitary_of w g vals = Ok (MD u) /\ is_matrix (List.length (target g)) u /\
              keq (List.length (target g)) (entry u) M.
Proof.
  intros w vals g M G SP; unfold unitary_of, generator.
  destruct G as [name M' K N L I|K N L|name R_ t K N L A I|t K L A]; rewrite L, K, ?SP.
  - rewrite N; simpl in I; repeat (destruct I as [I|I]; [injection I as <- <-|]); [| | | | | | |contradiction];
      simpl; eexists; (split; [reflexivity|]); try (split; [apply matrix2_is|apply matrix2_entry]).
    apply H_lib.
  - rewrite N; simpl; eexists; split; [reflexivity|apply SWAP_lib].
  - rewrite N; apply angle_parse in A; rewrite A.
    simpl in I; repeat (destruct I as [I|I]; [injection I as <- <-|]); [| | |contradiction].
    + destruct (RX_lib t) as (u & E & HM & HE); change (operations_dict "X") with (Ok m_X); cbn [bind]; rewrite E; simpl; eauto.
    + destruct (RY_lib t) as (u & E & HM & HE); change (operations_dict "Y") with (Ok m_Y); cbn [bind]; rewrite E; simpl; eauto.
    + destruct (RZ_lib t) as (u & E & HM & HE); change (operations_dict "Z") with (Ok m_Z); cbn [bind]; rewrite E; simpl; eauto.
  - apply angle_parse in A; rewrite A; simpl; rewrite phase_matrix_eq.
    eexists; split; [reflexivity|]; split; [apply matrix2_is|apply matrix2_entry].
Qed.

(** ** dagger of a matrix *)
Lemma dagger_matrix : forall k u, is_matrix k u ->
    exists d, dagger u = Ok d /\ is_matrix k d /\ keq k (entry d) (kadj (entry u)).
Proof.
  intros k u [S W]; unfold dagger, ndim; rewrite S; simpl List.length.
  change (Nat.ltb 2 2) with false; cbv iota.
  change (rev (seq 0 2)) with [1; 0].
  assert (P : is_perm (ndim u) [1; 0]).
  { unfold ndim; rewrite S; simpl; apply is_perm_intro.
    - repeat constructor; simpl; intuition discriminate.
    - reflexivity.
    - simpl; intuition lia. }
  rewrite (transpose_eq u [1; 0] P); cbn [bind].
  eexists; split; [reflexivity|].
  rewrite S; simpl restrict.
  split.
  - split; [reflexivity|]. apply wf_map_arr, wf_build.
  - intros x y Hx Hy; unfold entry, kadj, entry.
    rewrite get_conj; [|apply wf_build|simpl; apply inb_2; apply binval_lt; assumption].
    rewrite get_build; [reflexivity|apply inb_2; apply binval_lt; assumption].
Qed.
